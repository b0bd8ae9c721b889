(** Lemmas for the pose prior. *)

From Coq Require Import Reals List Arith Bool String Lia Lra.
From Verif Require Import Prelude Loops LinAlg Rbool QR_model Limits_model Cov_spec Mppca_model Mppca_spec Prior_model Prior_spec.
Import ListNotations.
Local Open Scope R_scope.

(** ** The two maps *)

Record maps_ok (pn ns : list string) (mp0 iv0 mp iv : list (option nat)) : Prop := {
  mk_mp : List.length mp = List.length ns;
  mk_iv : List.length iv = List.length pn;
  mk_some : forall i a j, nth_error ns i = Some a -> nth_error pn j = Some a -> nth_error mp i = Some (Some j);
  mk_none : forall i a, nth_error ns i = Some a -> ~ In a pn -> nth_error mp i = nth_error mp0 i;
  mk_inv : forall j b, nth_error pn j = Some b ->
    (exists i, nth_error ns i = Some b /\ nth_error iv j = Some (Some i) /\ forall i', (i < i')%nat -> nth_error ns i' <> Some b) \/
    (~ In b ns /\ nth_error iv j = nth_error iv0 j)
}.

Lemma inner_loop pn ns i a mp0 iv0 : NoDup pn -> nth_error ns i = Some a -> (i < List.length mp0)%nat -> List.length iv0 = List.length pn ->
  exists mp iv, ofold (fun j (st : list (option nat) * list (option nat)) =>
        obind (rd ns i) (fun a => obind (rd pn j) (fun b =>
        if String.eqb a b then
          obind (wr (fst st) i (Some j)) (fun mp => obind (wr (snd st) j (Some i)) (fun iv => Ok (mp, iv)))
        else Ok st))) (seq 0 (List.length pn)) (mp0, iv0) = Ok (mp, iv) /\
  List.length mp = List.length mp0 /\ List.length iv = List.length iv0 /\
  (forall k, k <> i -> nth_error mp k = nth_error mp0 k) /\
  (forall j, nth_error pn j = Some a -> nth_error mp i = Some (Some j) /\ nth_error iv j = Some (Some i)) /\
  (~ In a pn -> nth_error mp i = nth_error mp0 i) /\
  (forall j, nth_error pn j <> Some a -> nth_error iv j = nth_error iv0 j).
Proof.
  intros ND Ea Hi Li.
  match goal with |- context [ofold ?F _ _] => destruct (ofold_seq_inv F (fun n st =>
    List.length (fst st) = List.length mp0 /\ List.length (snd st) = List.length iv0 /\
    (forall k, k <> i -> nth_error (fst st) k = nth_error mp0 k) /\
    (forall j, (j < n)%nat -> nth_error pn j = Some a -> nth_error (fst st) i = Some (Some j) /\ nth_error (snd st) j = Some (Some i)) /\
    ((forall j, (j < n)%nat -> nth_error pn j <> Some a) -> nth_error (fst st) i = nth_error mp0 i) /\
    (forall j, nth_error pn j <> Some a \/ (n <= j)%nat -> nth_error (snd st) j = nth_error iv0 j)) (List.length pn) (mp0, iv0)) as ([mp iv] & E & P) end.
  - cbn [fst snd]. do 3 (split; [reflexivity|]). split; [intros; lia|]. split; reflexivity.
  - intros n [mp iv] Hn (L1 & L2 & K & A & B & C). cbn [fst snd] in *. destruct (nth_error_lt pn n Hn) as [b Eb].
    rewrite (rd_some _ _ _ Ea), (rd_some _ _ _ Eb). cbn [obind]. destruct (String.eqb_spec a b) as [<-|Ne].
    + destruct (wr_ok mp i (Some n)) as (mp' & E1 & L1' & S1 & O1); [lia|]. destruct (wr_ok iv n (Some i)) as (iv' & E2 & L2' & S2 & O2); [lia|].
      rewrite E1, E2. cbn [obind]. eexists. split; [reflexivity|]. cbn [fst snd]. split; [lia|]. split; [lia|].
      split; [intros k Hk; rewrite O1 by exact Hk; apply K, Hk|].
      assert (Un : forall j, nth_error pn j = Some a -> j = n).
      { intros j Ej. apply (proj1 (NoDup_nth_error pn) ND); [apply nth_error_Some; congruence|congruence]. }
      split; [|split].
      * intros j Hj Ej. rewrite (Un j Ej). split; assumption.
      * intros X. exfalso. apply (X n); [lia|exact Eb].
      * intros j Hj. rewrite O2; [apply C|]. { destruct Hj as [Hj|Hj]; [left; exact Hj|right; lia]. } { intros ->. destruct Hj as [Hj|Hj]; [apply Hj, Eb|lia]. }
    + eexists. split; [reflexivity|]. cbn [fst snd]. do 3 (split; [assumption|]). split; [|split].
      * intros j Hj Ej. apply A; [|exact Ej]. destruct (Nat.eq_dec j n) as [->|]; [congruence|lia].
      * intros X. apply B. intros j Hj. apply X. lia.
      * intros j Hj. apply C. destruct Hj as [Hj|Hj]; [left; exact Hj|right; lia].
  - exists mp, iv. cbn [fst snd] in *. destruct P as (L1 & L2 & K & A & B & C). split; [exact E|]. do 3 (split; [assumption|]). split; [|split].
    + intros j Ej. apply A; [apply nth_error_Some; congruence|exact Ej].
    + intros X. apply B. intros j Hj Ej. apply X. eapply nth_error_In; exact Ej.
    + intros j Hj. apply C. left. exact Hj.
Qed.

Lemma resize_length {A} (l : list A) n a : List.length (resize l n a) = n.
Proof. unfold resize. rewrite app_length, firstn_length, repeat_length. lia. Qed.

Lemma load_ok E m : NoDup (pr_names E) ->
  exists mp iv, load_internal E m = Ok (PriorFn (pr_names E) (pr_weight E) (Some m) mp iv) /\
    maps_ok (pr_names E) (mx_names m) (resize (pr_map E) (List.length (mx_names m)) None) (resize (pr_inv E) (List.length (pr_names E)) None) mp iv.
Proof.
  intros ND. unfold load_internal. cbv zeta. set (pn := pr_names E) in *. set (ns := mx_names m).
  set (mp0 := resize (pr_map E) (List.length ns) None). set (iv0 := resize (pr_inv E) (List.length pn) None).
  assert (L0 : List.length mp0 = List.length ns) by apply resize_length. assert (I0 : List.length iv0 = List.length pn) by apply resize_length.
  match goal with |- context [ofold ?F (seq 0 (List.length ns)) (mp0, iv0)] => destruct (ofold_seq_inv F (fun n st =>
    List.length (fst st) = List.length ns /\ List.length (snd st) = List.length pn /\
    (forall k, (n <= k)%nat -> nth_error (fst st) k = nth_error mp0 k) /\
    (forall i a j, (i < n)%nat -> nth_error ns i = Some a -> nth_error pn j = Some a -> nth_error (fst st) i = Some (Some j)) /\
    (forall i a, (i < n)%nat -> nth_error ns i = Some a -> ~ In a pn -> nth_error (fst st) i = nth_error mp0 i) /\
    (forall j b, nth_error pn j = Some b ->
      (exists i, (i < n)%nat /\ nth_error ns i = Some b /\ nth_error (snd st) j = Some (Some i) /\ forall i', (i < i' < n)%nat -> nth_error ns i' <> Some b) \/
      ((forall i, (i < n)%nat -> nth_error ns i <> Some b) /\ nth_error (snd st) j = nth_error iv0 j))) (List.length ns) (mp0, iv0)) as ([mp iv] & E' & P) end.
  - cbn [fst snd]. split; [exact L0|]. split; [exact I0|]. split; [reflexivity|]. split; [intros; lia|]. split; [intros; lia|]. intros j b Ej. right. split; [intros; lia|reflexivity].
  - intros n [mp iv] Hn (L1 & L2 & K & A & B & C). cbn [fst snd] in *. destruct (nth_error_lt ns n Hn) as [a Ea].
    destruct (inner_loop pn ns n a mp iv ND Ea ltac:(lia) L2) as (mp' & iv' & E1 & L1' & L2' & K' & A' & B' & C'). rewrite E1. eexists. split; [reflexivity|]. cbn [fst snd].
    split; [lia|]. split; [lia|]. split; [intros k Hk; rewrite K' by lia; apply K; lia|]. split; [|split].
    + intros i x j Hi Ei Ej. destruct (Nat.eq_dec i n) as [->|Ne]; [apply A'; congruence|]. rewrite K' by exact Ne. apply (A i x j); [lia|exact Ei|exact Ej].
    + intros i x Hi Ei Nx. destruct (Nat.eq_dec i n) as [->|Ne]; [rewrite B' by congruence; apply K; lia|]. rewrite K' by exact Ne. apply (B i x); [lia|exact Ei|exact Nx].
    + intros j b Ej. destruct (string_dec b a) as [->|Nb].
      * left. exists n. split; [lia|]. split; [exact Ea|]. split; [apply A', Ej|]. intros; lia.
      * assert (Q : nth_error iv' j = nth_error iv j) by (apply C'; congruence). rewrite Q. destruct (C j b Ej) as [(i & Hi & Ei & Ii & U)|[U Ii]].
        { left. exists i. split; [lia|]. split; [exact Ei|]. split; [exact Ii|]. intros i' Hi'. destruct (Nat.eq_dec i' n) as [->|]; [congruence|]. apply U. lia. }
        { right. split; [|exact Ii]. intros i Hi. destruct (Nat.eq_dec i n) as [->|]; [congruence|]. apply U. lia. }
  - rewrite E'. cbn [obind fst snd]. exists mp, iv. split; [reflexivity|]. cbn [fst snd] in P. destruct P as (L1 & L2 & _ & A & B & C). split; [exact L1|exact L2| | |].
    + intros i a j Ei Ej. apply (A i a j); [apply nth_error_Some; congruence|exact Ei|exact Ej].
    + intros i a Ei Na. apply (B i a); [apply nth_error_Some; congruence|exact Ei|exact Na].
    + intros j b Ej. destruct (C j b Ej) as [(i & Hi & Ei & Ii & U)|[U Ii]].
      * left. exists i. split; [exact Ei|]. split; [exact Ii|]. intros i' Hi' X. apply (U i'); [|exact X]. split; [exact Hi'|]. apply nth_error_Some. congruence.
      * right. split; [|exact Ii]. intros X. apply In_nth_error in X as [i X]. apply (U i); [apply nth_error_Some; congruence|exact X].
Qed.

Lemma nth_repeat_none (n i : nat) : (i < n)%nat -> nth_error (repeat (@None nat) n) i = Some None.
Proof. revert i. induction n as [|n IH]; intros [|i] H; cbn; try lia; [reflexivity|apply IH; lia]. Qed.

(** Freshly built. *)
Record fresh (pn : list string) (w : R) (m : mixture) (E : prior_fn) : Prop := {
  fr_names : pr_names E = pn; fr_weight : pr_weight E = w; fr_prior : pr_prior E = Some m;
  fr_maps : maps_ok pn (mx_names m) (repeat None (List.length (mx_names m))) (repeat None (List.length pn)) (pr_map E) (pr_inv E)
}.
Lemma new_ok pn w m : NoDup pn -> exists E, prior_new pn w (Some m) = Ok E /\ fresh pn w m E.
Proof.
  intros ND. unfold prior_new. destruct (load_ok (PriorFn pn w (Some m) [] []) m ND) as (mp & iv & E & M). cbn [pr_names pr_weight pr_map pr_inv] in *.
  eexists. split; [exact E|]. unfold resize in M. rewrite !firstn_nil in M. cbn [List.length app] in M. rewrite !Nat.sub_0_r in M. split; try reflexivity. exact M.
Qed.

(** ** The point *)

Lemma named_value_some pn : forall p j a, NoDup pn -> List.length p = List.length pn -> nth_error pn j = Some a -> named_value pn p a = nth j p 0.
Proof.
  induction pn as [|b pn IH]; intros [|x p] [|j] a ND L E; cbn in *; try discriminate.
  - injection E as ->. rewrite String.eqb_refl. reflexivity.
  - destruct (String.eqb_spec b a) as [->|]; [exfalso; inversion ND; subst; apply nth_error_In in E; contradiction|]. apply IH; [inversion ND; assumption|lia|exact E].
Qed.
Lemma named_value_none pn : forall p a, ~ In a pn -> named_value pn p a = 0.
Proof.
  induction pn as [|b pn IH]; intros [|x p] a H; cbn in *; try reflexivity. destruct (String.eqb_spec b a); [exfalso; apply H; left; assumption|]. apply IH. tauto.
Qed.

Lemma map_parameters_ok p mp : (forall j, In (Some j) mp -> (j < List.length p)%nat) ->
  exists xs, map_parameters p mp = Ok xs /\ List.length xs = List.length mp /\
    forall i, nth i xs 0 = match nth_error mp i with Some (Some j) => nth j p 0 | _ => 0 end.
Proof.
  induction mp as [|e mp IH]; intros H; [exists []; repeat split; intros [|i]; reflexivity|].
  destruct IH as (xs & E & L & N); [intros; apply H; right; assumption|]. cbn [map_parameters].
  assert (X : exists x, (match e with Some j => rd p j | None => Ok 0 end) = Ok x /\ x = match e with Some j => nth j p 0 | None => 0 end).
  { destruct e as [j|]; [|exists 0; split; reflexivity]. assert (Hj : (j < List.length p)%nat) by (apply H; left; reflexivity).
    destruct (nth_error_lt p j Hj) as [x Ex]. exists x. rewrite (rd_some _ _ _ Ex). split; [reflexivity|]. symmetry. apply nth_error_nth, Ex. }
  destruct X as (x & Ex & Vx). rewrite Ex, E. cbn [obind]. eexists. split; [reflexivity|]. cbn [List.length]. split; [lia|]. intros [|i]; cbn [nth nth_error]; [rewrite Vx; destruct e; reflexivity|apply N].
Qed.

Lemma fresh_range pn w m E j : NoDup pn -> fresh pn w m E -> In (Some j) (pr_map E) -> (j < List.length pn)%nat.
Proof.
  intros ND [_ _ _ M] H. apply In_nth_error in H as [i Hi]. assert (Hl : (i < List.length (mx_names m))%nat) by (rewrite <- (mk_mp _ _ _ _ _ _ M); apply nth_error_Some; congruence).
  destruct (nth_error_lt (mx_names m) i Hl) as [a Ea]. destruct (in_dec string_dec a pn) as [Ia|Na].
  - apply In_nth_error in Ia as [j' Ej]. rewrite (mk_some _ _ _ _ _ _ M i a j' Ea Ej) in Hi. injection Hi as <-. apply nth_error_Some. congruence.
  - rewrite (mk_none _ _ _ _ _ _ M i a Ea Na), nth_repeat_none in Hi by exact Hl. discriminate.
Qed.

Lemma sub_ok pn w m E p : NoDup pn -> fresh pn w m E -> List.length p = List.length pn ->
  exists xs, map_parameters p (pr_map E) = Ok xs /\ List.length xs = List.length (mx_names m) /\
    forall i, (i < List.length (mx_names m))%nat -> nth i xs 0 = prior_point m pn p i.
Proof.
  intros ND F L. destruct (map_parameters_ok p (pr_map E)) as (xs & Ex & Lx & N).
  { intros j Hj. rewrite L. apply (fresh_range pn w m E j ND F Hj). }
  destruct F as [_ _ _ M]. exists xs. split; [exact Ex|]. split; [rewrite Lx; apply (mk_mp _ _ _ _ _ _ M)|]. intros i Hi. rewrite N. unfold prior_point.
  destruct (nth_error_lt (mx_names m) i Hi) as [a Ea]. rewrite (nth_error_nth _ _ EmptyString Ea). destruct (in_dec string_dec a pn) as [Ia|Na].
  - apply In_nth_error in Ia as [j Ej]. rewrite (mk_some _ _ _ _ _ _ M i a j Ea Ej). symmetry. apply named_value_some; assumption.
  - rewrite (mk_none _ _ _ _ _ _ M i a Ea Na), nth_repeat_none by exact Hi. symmetry. apply named_value_none, Na.
Qed.

(** ** The best mode *)

Lemma vec_sub_ok a b : List.length a = List.length b -> exists v, vec_sub a b = Ok v /\ List.length v = List.length a /\
  forall i, (i < List.length a)%nat -> nth i v 0 = nth i a 0 - nth i b 0.
Proof.
  intros H. unfold vec_sub. rewrite H, Nat.eqb_refl. eexists. split; [reflexivity|]. rewrite map_length, combine_length. split; [lia|].
  intros i Hi. set (f := fun xy : R * R => fst xy - snd xy). rewrite (nth_indep _ 0 (f (0, 0))) by (rewrite map_length, combine_length; lia).
  rewrite (map_nth f), combine_nth by exact H. reflexivity.
Qed.
Lemma quad_left n (C : mat) (u : nat -> R) :
  sumn n (fun j => sumn n (fun i => / 2 * u i * C i j) * u j) = / 2 * quad n C u.
Proof.
  unfold quad. rewrite (sumn_ext n _ (fun j => sumn n (fun i => / 2 * (u i * (C i j * u j))))).
  - rewrite sumn_swap, <- sumn_scal. apply sumn_ext. intros i Hi. rewrite <- !sumn_scal. apply sumn_ext. intros; ring.
  - intros j Hj. rewrite <- sumn_scal_r. apply sumn_ext. intros; ring.
Qed.
Lemma quad_ext n C C' u v : (forall i j, (i < n)%nat -> (j < n)%nat -> C i j = C' i j) -> (forall i, (i < n)%nat -> u i = v i) -> quad n C u = quad n C' v.
Proof.
  intros HC Hu. unfold quad. apply sumn_ext. intros i Hi. rewrite Hu by exact Hi. f_equal. apply sumn_ext. intros j Hj. rewrite HC, Hu by assumption. reflexivity.
Qed.

Lemma best_step_ok m xs x c st : mixture_wf m -> (c < mx_p m)%nat -> List.length xs = mx_d m -> (forall i, (i < mx_d m)%nat -> nth i xs 0 = x i) ->
  exists diff, List.length diff = mx_d m /\ (forall i, (i < mx_d m)%nat -> nth i diff 0 = x i - nth i (nth c (mx_mu m) []) 0) /\
    best_step m xs c st = Ok (if Rltb (snd (fst st)) (mode_score m x c) then (Some c, diff, mode_score m x c, mode_dist m x c) else st).
Proof.
  intros W Hc Lx Hx. unfold best_step.
  destruct (nth_error_lt (mx_mu m) c) as [mu Emu]; [rewrite (xw_mu m W); exact Hc|]. destruct (nth_error_lt (mx_Cinv m) c) as [C EC]; [rewrite (xw_cinv m W); exact Hc|].
  destruct (nth_error_lt (mx_Rpre m) c) as [r Er]; [rewrite (xw_rpre m W); exact Hc|].
  assert (Lm : List.length mu = mx_d m) by (apply (xw_mean m W), (nth_error_In _ _ Emu)).
  destruct (vec_sub_ok xs mu ltac:(congruence)) as (diff & Ed & Ld & Nd). rewrite Lx in Ld, Nd. exists diff. split; [exact Ld|].
  assert (D : forall i, (i < mx_d m)%nat -> nth i diff 0 = x i - nth i (nth c (mx_mu m) []) 0).
  { intros i Hi. rewrite Nd, Hx by exact Hi. rewrite (nth_error_nth _ _ [] Emu). reflexivity. }
  split; [exact D|]. rewrite (rd_some _ _ _ Emu), (rd_some _ _ _ EC), (rd_some _ _ _ Er). cbn [obind]. rewrite Ed. cbn [obind]. cbv zeta. rewrite Ld.
  assert (Q : sumn (mx_d m) (fun j => sumn (mx_d m) (fun i => / 2 * nth i diff 0 * C i j) * nth j diff 0) = mode_dist m x c).
  { rewrite quad_left. unfold mode_dist. f_equal. rewrite (@nth_error_nth mat _ _ _ (fun _ _ => 0) EC). apply quad_ext; [reflexivity|exact D]. }
  rewrite Q. destruct st as [[[i0 d0] r0] s0]. cbn [fst snd]. unfold mode_score. rewrite (nth_error_nth _ _ 0 Er). reflexivity.
Qed.

Definition found (m : mixture) (x : nat -> R) (c : nat) (diff : list R) (r dist : R) : Prop :=
  List.length diff = mx_d m /\ (forall i, (i < mx_d m)%nat -> nth i diff 0 = x i - nth i (nth c (mx_mu m) []) 0) /\ r = mode_score m x c /\ dist = mode_dist m x c.

Lemma best_loop fmax m xs x : mixture_wf m -> List.length xs = mx_d m -> (forall i, (i < mx_d m)%nat -> nth i xs 0 = x i) ->
  exists st, ofold (best_step m xs) (seq 0 (mx_p m)) (None, [], - fmax, fmax) = Ok st /\
    let '(idx, diff, r, dist) := st in
    match idx with
    | None => (forall c, (c < mx_p m)%nat -> mode_score m x c <= - fmax) /\ dist = fmax
    | Some c => best_mode m x c /\ - fmax < mode_score m x c /\ found m x c diff r dist
    end.
Proof.
  intros W Lx Hx.
  destruct (ofold_seq_inv (best_step m xs) (fun n st => let '(idx, diff, r, dist) := st in
    match idx with
    | None => (forall c, (c < n)%nat -> mode_score m x c <= - fmax) /\ r = - fmax /\ dist = fmax
    | Some c => (c < n)%nat /\ (forall c', (c' < n)%nat -> mode_score m x c' <= mode_score m x c /\ ((c' < c)%nat -> mode_score m x c' < mode_score m x c)) /\ - fmax < mode_score m x c /\ found m x c diff r dist
    end) (mx_p m) (None, [], - fmax, fmax)) as ([[[idx diff] r] dist] & E & P).
  - split; [intros; lia|]. split; reflexivity.
  - intros n st Hn P. destruct (best_step_ok m xs x n st W Hn Lx Hx) as (diff & Ld & Nd & E). rewrite E. eexists. split; [reflexivity|].
    destruct st as [[[idx d0] r0] s0]. cbn [fst snd]. destruct (Rltb_spec r0 (mode_score m x n)) as [Lt|Ge].
    + split; [lia|]. split.
      * intros c' Hc'. destruct (Nat.eq_dec c' n) as [->|Ne]; [split; [lra|lia]|]. destruct idx as [c|].
        { destruct P as (_ & P & _ & _ & _ & Er & _). destruct (P c' ltac:(lia)) as [P1 _]. split; intros; lra. }
        { destruct P as (P & Er & _). specialize (P c' ltac:(lia)). split; intros; lra. }
      * split; [destruct idx as [c|]; [destruct P as (_ & _ & P & _ & _ & Er & _)|destruct P as (_ & Er & _)]; lra|]. repeat split; assumption.
    + destruct idx as [c|].
      * destruct P as (Hc & P & Pf & F). pose proof F as (_ & _ & Er & _). split; [lia|]. split; [|split; assumption]. intros c' Hc'. destruct (Nat.eq_dec c' n) as [->|Ne]; [|apply P; lia]. split; [lra|lia].
      * destruct P as (P & Er & Es). split; [|split; assumption]. intros c Hc. destruct (Nat.eq_dec c n) as [->|]; [lra|apply P; lia].
  - eexists. split; [exact E|]. cbn beta iota. destruct idx as [c|].
    + destruct P as (Hc & P & Pf & F). split; [split; assumption|]. split; assumption.
    + destruct P as (P & _ & Ed). split; assumption.
Qed.

Lemma best_unique m x c c' : best_mode m x c -> best_mode m x c' -> c = c'.
Proof.
  intros [H1 B1] [H2 B2]. destruct (Nat.lt_total c c') as [L|[->|L]]; [|reflexivity|].
  - destruct (B1 c' H2) as [X _]. destruct (B2 c H1) as [_ Y]. specialize (Y L). lra.
  - destruct (B2 c H1) as [X _]. destruct (B1 c' H2) as [_ Y]. specialize (Y L). lra.
Qed.
Lemma only_best m x c : only_best_mode m x c -> best_mode m x c.
Proof.
  intros [H B]. split; [exact H|]. intros c' Hc'. destruct (Nat.eq_dec c' c) as [->|Ne]; [split; [lra|lia]|]. specialize (B c' Hc' Ne). split; intros; lra.
Qed.

(** getBestFitMode of a fresh function. *)
Lemma get_best_ok fmax pn w m E p c : NoDup pn -> fresh pn w m E -> mixture_wf m -> List.length p = List.length pn ->
  best_mode m (prior_point m pn p) c -> - fmax < mode_score m (prior_point m pn p) c ->
  exists diff, get_best fmax E p = Ok (Some c, diff, mode_score m (prior_point m pn p) c, mode_dist m (prior_point m pn p) c) /\
    List.length diff = mx_d m /\ (forall i, (i < mx_d m)%nat -> nth i diff 0 = prior_point m pn p i - nth i (nth c (mx_mu m) []) 0).
Proof.
  intros ND F W L B P. unfold get_best. rewrite (fr_prior _ _ _ _ F). destruct (sub_ok pn w m E p ND F L) as (xs & Ex & Lx & Nx).
  rewrite Ex. cbn [obind]. rewrite (xw_names m W) in Lx, Nx. destruct (best_loop fmax m xs (prior_point m pn p) W Lx Nx) as ([[[idx diff] r] dist] & El & Q).
  rewrite El. destruct idx as [c'|].
  - destruct Q as (B' & P' & Ld & Nd & -> & ->). rewrite <- (best_unique _ _ _ _ B B') in *. exists diff. repeat split; assumption.
  - destruct Q as (Q & _). destruct B as [Hc _]. specialize (Q c Hc). lra.
Qed.
