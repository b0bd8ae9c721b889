(** C72: which error functions a sequence has after a history of calls. *)

From Coq Require Import Bool List Arith Lia Reals.
From Verif Require Import Prelude LinAlg Rbool Loops
  Seq_spec Seq_model Seq_proofs SeqFn_model SeqFn_spec SeqFn_proofs.
Import ListNotations.
Local Open Scope outcome_scope.
Local Open Scope nat_scope.

(** The per-frame functions added to frame [f], in order. *)
Definition frame_functions (ops : list so_op) (f : nat) : list serr :=
  flat_map (fun op => match op with
    | AddFrame None e => [e]
    | AddFrame (Some g) e => if g =? f then [e] else []
    | _ => []
    end) ops.

(** The sequence functions whose window starts at frame [f], in order. A function added for all
    frames gets every window that fits. *)
Definition sequence_functions (nF : nat) (ops : list so_op) (f : nat) : list serr :=
  flat_map (fun op => match op with
    | AddSequence None e => if f + se_frames e <=? nF then [e] else []
    | AddSequence (Some g) e => if g =? f then [e] else []
    | _ => []
    end) ops.

(** The calls that are accepted. *)
Definition op_fits (nF : nat) (op : so_op) : Prop :=
  match op with
  | Params _ => True
  | AddFrame None _ => True
  | AddFrame (Some f) _ => f < nF
  | AddSequence None e => 0 < se_frames e
  | AddSequence (Some f) e => f < nF /\ f + se_frames e <= nF
  end.

Lemma add1_eq (fss : list (list serr)) f e : f < length fss ->
  exists fss', (let* l := rd fss f in wr fss f (l ++ [e])) = Ok fss' /\ length fss' = length fss /\
    forall g, nth g fss' [] = nth g fss [] ++ (if f =? g then [e] else []).
Proof.
  intros H. destruct (nth_error_lt fss f H) as [l El]. rewrite (rd_some _ _ _ El). cbn [obind].
  destruct (wr_ok fss f (l ++ [e]) H) as (fss' & E & L & S & O). exists fss'. repeat split; auto.
  intros g. destruct (Nat.eqb_spec f g) as [<-|D].
  - rewrite (nth_error_nth0 _ _ [] _ S), (nth_error_nth0 _ _ [] _ El). reflexivity.
  - rewrite app_nil_r. destruct (Nat.lt_ge_cases g (length fss)) as [Hg|Hg].
    + destruct (nth_error_lt fss g Hg) as [x Ex]. rewrite (nth_error_nth0 _ _ [] _ Ex).
      apply nth_error_nth0. rewrite O by congruence. exact Ex.
    + rewrite !nth_overflow by lia. reflexivity.
Qed.

Lemma add_loop_eq (step : nat -> list (list serr) -> outcome (list (list serr))) n e fss :
  (forall f fs, f < n -> length fs = length fss -> step f fs = let* l := rd fs f in wr fs f (l ++ [e])) ->
  n <= length fss ->
  exists fss', ofold step (seq 0 n) fss = Ok fss' /\ length fss' = length fss /\
    forall g, nth g fss' [] = nth g fss [] ++ (if g <? n then [e] else []).
Proof.
  intros Hs. revert Hs. induction n as [|n IH]; intros Hs Hn.
  - exists fss. cbn. repeat split. intros g. rewrite app_nil_r. reflexivity.
  - destruct IH as (f1 & E1 & L1 & A1); [intros; apply Hs; lia|lia|].
    rewrite seq_S, ofold_app, E1. cbn [obind ofold Nat.add].
    rewrite Hs by lia. destruct (add1_eq f1 n e) as (f2 & E2 & L2 & A2); [lia|].
    rewrite E2. cbn [obind]. exists f2. repeat split; [congruence|].
    intros g. rewrite A2, A1, <- app_assoc. f_equal.
    destruct (Nat.ltb_spec g n), (Nat.eqb_spec n g), (Nat.ltb_spec g (S n)); try lia; reflexivity.
Qed.

Lemma op_effect np univ nF en o op o' : so_wf np univ nF en o -> op_fits nF op ->
  so_do o op = Ok o' ->
  forall f, f < nF -> nth f (so_per o') [] = nth f (so_per o) [] ++ frame_functions [op] f /\
    nth f (so_seq o') [] = nth f (so_seq o) [] ++ sequence_functions nF [op] f.
Proof.
  intros W Fit E f Hf. destruct op as [p|fr e|fr e]; cbn [so_do] in E.
  - destruct (seq_do (so_fn o) p); cbn [obind] in E; try discriminate. injection E as <-. cbn.
    rewrite !app_nil_r. auto.
  - unfold so_add in E. rewrite (w_nF _ _ _ _ _ (o_fn _ _ _ _ _ W)) in E. cbv zeta in E.
    pose proof (o_per _ _ _ _ _ W) as LP. destruct fr as [g|].
    + cbn in Fit. assert ((g <? nF) = true) as Hg by (apply Nat.ltb_lt; exact Fit). rewrite Hg in E. cbn [negb] in E.
      destruct (add1_eq (so_per o) g e) as (p' & E1 & L1 & A1); [lia|].
      rewrite E1 in E. cbn [obind] in E. injection E as <-. cbn. rewrite A1, !app_nil_r. auto.
    + destruct (add_loop_eq (fun f per => let* l := rd per f in wr per f (l ++ [e])) nF e (so_per o)) as (p' & E1 & L1 & A1); [auto|lia|].
      rewrite E1 in E. cbn [obind] in E. injection E as <-. cbn. rewrite A1, !app_nil_r.
      assert ((f <? nF) = true) as -> by (apply Nat.ltb_lt; exact Hf). auto.
  - unfold so_add_seq in E. rewrite (w_nF _ _ _ _ _ (o_fn _ _ _ _ _ W)) in E. cbv zeta in E.
    pose proof (o_seq _ _ _ _ _ W) as LP. destruct fr as [g|].
    + cbn in Fit. destruct Fit as [F1 F2]. assert ((g <? nF) = true) as Hg by (apply Nat.ltb_lt; exact F1).
      assert ((g + se_frames e <=? nF) = true) as Hl by (apply Nat.leb_le; exact F2).
      rewrite Hg, Hl in E. cbn [negb] in E.
      destruct (add1_eq (so_seq o) g e) as (p' & E1 & L1 & A1); [lia|].
      rewrite E1 in E. cbn [obind] in E. injection E as <-. cbn. rewrite A1, !app_nil_r. auto.
    + cbn in Fit. destruct (Nat.leb_spec (se_frames e) nF) as [Le|Gt].
      * edestruct (add_loop_eq (fun f sq => if negb (f <? nF) then CheckFail
          else if negb (f + se_frames e <=? nF) then CheckFail
          else let* l := rd sq f in wr sq f (l ++ [e])) (nF - se_frames e + 1) e (so_seq o)) as (p' & E1 & L1 & A1); [|lia|].
        { intros k fs Hk _. assert ((k <? nF) = true) as -> by (apply Nat.ltb_lt; lia).
          assert ((k + se_frames e <=? nF) = true) as -> by (apply Nat.leb_le; lia). reflexivity. }
        rewrite E1 in E. cbn [obind] in E. injection E as <-. cbn. rewrite A1, !app_nil_r. split; [reflexivity|].
        f_equal. destruct (Nat.ltb_spec f (nF - se_frames e + 1)), (Nat.leb_spec (f + se_frames e) nF); try lia; reflexivity.
      * cbn [obind] in E. injection E as <-. cbn. rewrite !app_nil_r. split; [reflexivity|].
        destruct (Nat.leb_spec (f + se_frames e) nF); [lia|]. rewrite app_nil_r. reflexivity.
Qed.

(** After any accepted history, frame [f] has exactly the functions added to it, in order. *)
Theorem sequence_functions_added np univ nF ops o :
  (forall op, In op ops -> op_fits nF op) -> so_run np univ nF ops = Ok o ->
  length (so_per o) = nF /\ length (so_seq o) = nF /\
  forall f, f < nF ->
    nth f (so_per o) [] = frame_functions ops f /\ nth f (so_seq o) [] = sequence_functions nF ops f.
Proof.
  intros Fit H. pose proof (so_run_wf _ _ _ _ _ H) as W.
  split; [apply (o_per _ _ _ _ _ W)|]. split; [apply (o_seq _ _ _ _ _ W)|]. clear W.
  unfold so_run in H.
  assert (forall ops o0 en o, so_wf np univ nF en o0 -> (forall op, In op ops -> op_fits nF op) ->
    ofold (fun op o => so_do o op) ops o0 = Ok o -> forall f, f < nF ->
    nth f (so_per o) [] = nth f (so_per o0) [] ++ frame_functions ops f /\
    nth f (so_seq o) [] = nth f (so_seq o0) [] ++ sequence_functions nF ops f) as G.
  { clear. induction ops as [|op ops IH]; intros o0 en o W Fit H f Hf; cbn [ofold] in H.
    - injection H as <-. cbn. rewrite !app_nil_r. auto.
    - destruct (so_do o0 op) as [o1| | | |] eqn:E1; cbn [obind] in H; try discriminate.
      destruct (op_effect np univ nF en o0 op o1 W (Fit op (or_introl eq_refl)) E1 f Hf) as [P1 S1].
      assert (so_wf np univ nF (fold_left (fun e o => match o with SetEnabled en => en | _ => e end)
        (params_of [op]) en) o1) as W1.
      { apply (so_run_wf_gen np univ nF [op] o0 en o1 W). cbn [ofold]. rewrite E1. reflexivity. }
      destruct (IH o1 _ o W1 (fun x Hx => Fit x (or_intror Hx)) H f Hf) as [P2 S2].
      rewrite P2, S2, P1, S1, <- !app_assoc.
      unfold frame_functions, sequence_functions. cbn [flat_map]. rewrite !app_nil_r. auto. }
  intros f Hf. destruct (G ops _ _ o (so_init_wf np univ nF) Fit H f Hf) as [P S]. rewrite P, S.
  cbn [so_init so_per so_seq]. rewrite !nth_repeat. auto.
Qed.
Print Assumptions sequence_functions_added.

(** Every accepted history of additions succeeds. *)
Theorem sequence_additions_succeed np univ nF ops :
  (forall op, In op ops -> op_fits nF op /\ match op with Params _ => False | _ => True end) ->
  exists o, so_run np univ nF ops = Ok o.
Proof.
  intros Fit. unfold so_run.
  assert (forall ops o0 en, so_wf np univ nF en o0 ->
    (forall op, In op ops -> op_fits nF op /\ match op with Params _ => False | _ => True end) ->
    exists o, ofold (fun op o => so_do o op) ops o0 = Ok o) as G.
  { clear. induction ops as [|op ops IH]; intros o0 en W Fit; cbn [ofold]; [eauto|].
    destruct (Fit op (or_introl eq_refl)) as [F NP].
    assert (exists o1, so_do o0 op = Ok o1) as [o1 E1].
    { destruct op as [p|fr e|fr e]; [destruct NP| |]; cbn [so_do].
      - unfold so_add. rewrite (w_nF _ _ _ _ _ (o_fn _ _ _ _ _ W)). cbv zeta.
        pose proof (o_per _ _ _ _ _ W) as LP. destruct fr as [g|].
        + cbn in F. assert ((g <? nF) = true) as -> by (apply Nat.ltb_lt; exact F). cbn [negb].
          destruct (add1_eq (so_per o0) g e) as (p' & E1 & _); [lia|]. rewrite E1. cbn [obind]. eauto.
        + destruct (add_loop_eq (fun f per => let* l := rd per f in wr per f (l ++ [e])) nF e (so_per o0)) as (p' & E1 & _); [auto|lia|].
          rewrite E1. cbn [obind]. eauto.
      - unfold so_add_seq. rewrite (w_nF _ _ _ _ _ (o_fn _ _ _ _ _ W)). cbv zeta.
        pose proof (o_seq _ _ _ _ _ W) as LP. destruct fr as [g|].
        + cbn in F. destruct F as [F1 F2]. assert ((g <? nF) = true) as -> by (apply Nat.ltb_lt; exact F1).
          assert ((g + se_frames e <=? nF) = true) as -> by (apply Nat.leb_le; exact F2). cbn [negb].
          destruct (add1_eq (so_seq o0) g e) as (p' & E1 & _); [lia|]. rewrite E1. cbn [obind]. eauto.
        + cbn in F. destruct (Nat.leb_spec (se_frames e) nF) as [Le|Gt]; [|cbn [obind]; eauto].
          edestruct (add_loop_eq (fun f sq => if negb (f <? nF) then CheckFail
            else if negb (f + se_frames e <=? nF) then CheckFail
            else let* l := rd sq f in wr sq f (l ++ [e])) (nF - se_frames e + 1) e (so_seq o0)) as (p' & E1 & _); [|lia|].
          { intros k fs Hk _. assert ((k <? nF) = true) as -> by (apply Nat.ltb_lt; lia).
            assert ((k + se_frames e <=? nF) = true) as -> by (apply Nat.leb_le; lia). reflexivity. }
          rewrite E1. cbn [obind]. eauto. }
    rewrite E1. cbn [obind]. eapply IH; [|intros x Hx; apply Fit; right; exact Hx].
    apply (so_run_wf_gen np univ nF [op] o0 en o1 W). cbn [ofold]. rewrite E1. reflexivity. }
  eapply G; [apply so_init_wf|exact Fit].
Qed.
Print Assumptions sequence_additions_succeed.

Example additions_case :
  (forall op, In op [AddSequence None (mps 2 1 [1; 2]%R (fun _ => true));
                     AddFrame (Some 2) (mps 2 1 [1; 2]%R (fun _ => true))] -> op_fits 3 op) /\
  map (fun f => length (sequence_functions 3 [AddSequence None (mps 2 1 [1; 2]%R (fun _ => true));
                     AddFrame (Some 2) (mps 2 1 [1; 2]%R (fun _ => true))] f)) [0; 1; 2] = [1; 1; 0].
Proof. split; [intros op [<-|[<-|[]]]; cbn; lia|reflexivity]. Qed.
