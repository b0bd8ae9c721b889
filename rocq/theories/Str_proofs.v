From Coq Require Import List Arith Ascii Bool Lia.
From Verif Require Import Prelude Str_model Str_spec.
Import ListNotations.

Lemma existsb_in c ds : existsb (Ascii.eqb c) ds = true <-> In c ds.
Proof.
  rewrite existsb_exists. split.
  - intros [x [H E]]. apply Ascii.eqb_eq in E. subst. exact H.
  - intros H. exists c. split; [exact H|apply Ascii.eqb_refl].
Qed.
Lemma existsb_notin c ds : existsb (Ascii.eqb c) ds = false <-> ~ In c ds.
Proof. rewrite <- existsb_in. destruct (existsb _ _); split; congruence. Qed.

Lemma strchr_white ws c : strchr ws c = true <-> white ws c.
Proof.
  unfold strchr, white. rewrite orb_true_iff, existsb_in, Ascii.eqb_eq. reflexivity.
Qed.
Lemma strchr_not_white ws c : strchr ws c = false <-> ~ white ws c.
Proof. rewrite <- strchr_white. destruct (strchr ws c); split; congruence. Qed.

(** ** Splitting *)

Lemma find_from_none ds s pos : find_from ds s pos = None -> forall c, In c s -> ~ In c ds.
Proof.
  revert pos; induction s as [|x s IH]; intros pos; cbn; [intros _ c []|].
  destruct (existsb (Ascii.eqb x) ds) eqn:E; [discriminate|].
  intros H c [<-|Hc]; [apply existsb_notin; exact E|eapply IH; eassumption].
Qed.
Lemma find_from_some ds s pos k : find_from ds s pos = Some k ->
  exists p d r, s = p ++ d :: r /\ k = pos + length p /\ In d ds /\ forall c, In c p -> ~ In c ds.
Proof.
  revert pos; induction s as [|x s IH]; intros pos; cbn; [discriminate|].
  destruct (existsb (Ascii.eqb x) ds) eqn:E.
  - intros H; injection H as <-. exists [], x, s. split; [reflexivity|]. split; [cbn; lia|].
    split; [apply existsb_in; exact E|intros c []].
  - intros H. destruct (IH _ H) as [p [d [r [-> [-> [Hd Hp]]]]]].
    exists (x :: p), d, r. split; [reflexivity|]. split; [cbn; lia|]. split; [exact Hd|].
    intros c [<-|Hc]; [apply existsb_notin; exact E|apply Hp; exact Hc].
Qed.

Definition keep (t : bool) (p : str) : bool := negb (Nat.eqb (length p) 0) || negb t.

Lemma firstn_app_exact {A} (p q : list A) : firstn (length p) (p ++ q) = p.
Proof. rewrite firstn_app, firstn_all, Nat.sub_diag, firstn_O, app_nil_r. reflexivity. Qed.
Lemma skipn_app_exact {A} (p q : list A) : skipn (length p) (p ++ q) = q.
Proof. rewrite skipn_app, skipn_all, Nat.sub_diag. reflexivity. Qed.

Lemma substr_rest pre rest n : n >= length rest -> substr (pre ++ rest) (length pre) n = Ok rest.
Proof.
  intros H. unfold substr. rewrite app_length.
  destruct (Nat.ltb_spec (length pre + length rest) (length pre)); [lia|].
  rewrite skipn_app_exact, firstn_all2 by lia. reflexivity.
Qed.
Lemma substr_mid pre p r : substr (pre ++ p ++ r) (length pre) (length p) = Ok p.
Proof.
  unfold substr. rewrite app_length.
  destruct (Nat.ltb_spec (length pre + length (p ++ r)) (length pre)); [lia|].
  rewrite skipn_app_exact, firstn_app_exact. reflexivity.
Qed.

Lemma tok_loop_spec ds t : forall fuel rest pre acc, length rest < fuel ->
  exists ps, splits ds rest ps /\
    tok_loop fuel ds (pre ++ rest) t (length pre) acc = Ok (acc ++ filter (keep t) ps).
Proof.
  induction fuel as [|fuel IH]; intros rest pre acc Hf; [lia|].
  cbn [tok_loop]. unfold find_first_of. rewrite skipn_app_exact.
  destruct (find_from ds rest (length pre)) as [pos|] eqn:F.
  - destruct (find_from_some _ _ _ _ F) as [p [d [r [E [Ek [Hd Hp]]]]]]. subst rest pos.
    replace (length pre + length p - length pre) with (length p) by lia.
    rewrite substr_mid. cbn [obind].
    destruct (IH r (pre ++ p ++ [d]) (if keep t p then acc ++ [p] else acc)) as [ps [S E]].
    { rewrite app_length in Hf. cbn in Hf. lia. }
    exists (p :: ps). split; [constructor; assumption|].
    replace ((pre ++ p ++ [d]) ++ r) with (pre ++ p ++ d :: r) in E by (rewrite <- !app_assoc; reflexivity).
    replace (length (pre ++ p ++ [d])) with (length pre + length p + 1) in E by (rewrite !app_length; cbn; lia).
    unfold keep in E |- *. cbn [filter]. rewrite E. destruct (negb (length p =? 0) || negb t); [|reflexivity].
    rewrite <- app_assoc. reflexivity.
  - exists [rest]. split; [constructor; eapply find_from_none; exact F|].
    rewrite substr_rest by (rewrite app_length; lia). cbn [obind filter]. unfold keep.
    destruct (negb (length rest =? 0) || negb t); [reflexivity|rewrite app_nil_r; reflexivity].
Qed.

Lemma filter_true {A} (l : list A) : filter (fun _ => true) l = l.
Proof. induction l as [|x l IH]; [reflexivity|]. cbn. rewrite IH. reflexivity. Qed.

Lemma splits_unique ds s : forall ps1 ps2, splits ds s ps1 -> splits ds s ps2 -> ps1 = ps2.
Proof.
  intros ps1 ps2 H1 H2. destruct s as [|c r].
  - assert (K : forall t ps, splits ds t ps -> t = [] -> ps = [[]]).
    { clear. intros t ps H E. destruct H as [p Hp|p d s ps Hp Hd H]; [subst; reflexivity|].
      destruct p; discriminate. }
    rewrite (K _ _ H1 eq_refl), (K _ _ H2 eq_refl). reflexivity.
  - (* every splitting is the one tokenize computes *)
    revert ps2 H2. induction H1 as [p Hp|p d s ps Hp Hd H IH]; intros ps2 H2.
    + inversion H2 as [q Hq|q d s0 ps0 Hq Hd Hs Eq]; subst; [reflexivity|].
      exfalso. apply (Hp d); [apply in_or_app; right; left; reflexivity|exact Hd].
    + inversion H2 as [q Hq Eq|q d' s0 ps0 Hq Hd' Hs Eq]; subst.
      * exfalso. apply (Hq d); [apply in_or_app; right; left; reflexivity|exact Hd].
      * assert (K : p = q /\ s = s0).
        { clear -Eq Hp Hq Hd Hd'. revert q Hq Eq. induction p as [|x p IH]; intros [|y q] Hq Eq; cbn in Eq.
          - injection Eq as _ <-. auto.
          - injection Eq as E1 _. exfalso. apply (Hq y); [left; reflexivity|rewrite E1; exact Hd].
          - injection Eq as E1 _. exfalso. apply (Hp x); [left; reflexivity|rewrite <- E1; exact Hd'].
          - injection Eq as <- Eq. destruct (IH (fun c H => Hp c (or_intror H)) q (fun c H => Hq c (or_intror H)) Eq) as [-> ->]. auto. }
        destruct K as [-> ->]. f_equal. apply IH. exact Hs.
Qed.

Lemma tokenize_lemma s ds : s <> [] ->
  exists ps, splits ds s ps /\ tokenize s ds false = Ok ps /\
    tokenize s ds true = Ok (filter (fun p => negb (Nat.eqb (length p) 0)) ps).
Proof.
  intros N. destruct (tok_loop_spec ds false (S (length s)) s [] []) as [ps [S E]]; [lia|].
  destruct (tok_loop_spec ds true (Datatypes.S (length s)) s [] []) as [ps2 [S2 E2]]; [lia|].
  exists ps. split; [exact S|]. unfold tokenize. destruct s as [|c r]; [contradiction|].
  cbn [app length] in E, E2 |- *. rewrite E, E2. rewrite (splits_unique _ _ _ _ S2 S). split.
  - f_equal. cbn [app]. unfold keep. rewrite <- (filter_true ps) at 2. apply filter_ext. intros a. apply orb_true_r.
  - f_equal. cbn [app]. apply filter_ext. intros a. unfold keep. apply orb_false_r.
Qed.

(** ** Trimming *)

Lemma rd_app_last {A} (l : list A) x r : rd (l ++ x :: r) (length l) = Ok x.
Proof. unfold rd. rewrite nth_error_app2, Nat.sub_diag by lia. reflexivity. Qed.

Lemma trim_end_spec ws : forall l b, (forall c, In c b -> white ws c) ->
  exists m b', l ++ b = m ++ b' /\ trim_end ws (l ++ b) (length l) = Ok (length m) /\
    (forall c, In c b' -> white ws c) /\ (forall c m', m = m' ++ [c] -> ~ white ws c).
Proof.
  intros l. induction l as [|x l IH] using rev_ind; intros b Hb.
  - exists [], b. split; [reflexivity|]. split; [reflexivity|]. split; [exact Hb|].
    intros c m' E. destruct m'; discriminate.
  - rewrite app_length. cbn [length]. rewrite Nat.add_comm. cbn [Nat.add trim_end].
    rewrite <- app_assoc. cbn [app]. rewrite rd_app_last. cbn [obind].
    destruct (strchr ws x) eqn:W.
    + destruct (IH (x :: b)) as [m [b' [E1 [E2 [E3 E4]]]]].
      { intros c [<-|Hc]; [apply strchr_white; exact W|apply Hb; exact Hc]. }
      exists m, b'. auto.
    + exists (l ++ [x]), b. split; [rewrite <- app_assoc; reflexivity|].
      split; [rewrite app_length; cbn; f_equal; lia|]. split; [exact Hb|].
      intros c m' E. apply app_inj_tail in E as [_ <-]. apply strchr_not_white. exact W.
Qed.

Lemma trim_start_spec ws : forall m a b, (forall c, In c a -> white ws c) ->
  (exists r a', a ++ m = a' ++ r /\ trim_start ws (a ++ m ++ b) (length a) (length m) = Ok (length a') /\
    (forall c, In c a' -> white ws c) /\ (forall c r', r = c :: r' -> ~ white ws c)).
Proof.
  induction m as [|x m IH]; intros a b Ha.
  - exists [], a. split; [reflexivity|]. split; [reflexivity|]. split; [exact Ha|]. intros c r' E; discriminate.
  - cbn [length trim_start app]. rewrite rd_app_last. cbn [obind]. destruct (strchr ws x) eqn:W.
    + destruct (IH (a ++ [x]) b) as [r [a' [E1 [E2 [E3 E4]]]]].
      { intros c Hc. apply in_app_iff in Hc as [Hc|[<-|[]]]; [apply Ha; exact Hc|apply strchr_white; exact W]. }
      exists r, a'. rewrite <- app_assoc in E1. split; [exact E1|]. split; [|auto].
      rewrite app_length in E2. cbn [length] in E2. rewrite Nat.add_comm in E2. cbn [Nat.add] in E2.
      rewrite <- app_assoc in E2. exact E2.
    + exists (x :: m), a. split; [reflexivity|]. split; [reflexivity|]. split; [exact Ha|].
      intros c r' E. injection E as <- _. apply strchr_not_white. exact W.
Qed.

Lemma trim_lemma ws s : exists r, trim ws s = Ok r /\ trimmed ws s r.
Proof.
  unfold trim. destruct (trim_end_spec ws s []) as [m [b [E1 [E2 [E3 E4]]]]]; [intros c []|].
  rewrite app_nil_r in E1, E2. rewrite E2. cbn [obind]. destruct (Nat.eqb_spec (length m) 0) as [Z|NZ].
  - destruct m; [|discriminate]. exists []. split; [reflexivity|]. exists b, []. rewrite E1.
    split; [cbn; rewrite app_nil_r; reflexivity|]. split; [exact E3|]. split; [intros c []|].
    split; [intros c r' E; discriminate|intros c r' E; destruct r'; discriminate].
  - destruct (trim_start_spec ws m [] b) as [r [a [F1 [F2 [F3 F4]]]]]; [intros c []|].
    cbn [app length] in F1, F2. rewrite E1, F2. cbn [obind].
    assert (T : trimmed ws (m ++ b) r).
    { exists a, b. split; [rewrite F1, <- app_assoc; reflexivity|]. split; [exact F3|]. split; [exact E3|]. split; [exact F4|].
      intros c r' E. apply (E4 c (a ++ r')). rewrite F1, E, app_assoc. reflexivity. }
    assert (SB : substr (m ++ b) (length a) (length m - length a) = Ok r).
    { rewrite F1, <- app_assoc, app_length. replace (length a + length r - length a) with (length r) by lia. apply substr_mid. }
    destruct (Nat.ltb_spec 0 (length a)) as [P|P]; cbn [orb]; [exists r; split; assumption|].
    destruct (Nat.ltb_spec (length m) (length (m ++ b))) as [Q|Q]; [exists r; split; assumption|].
    exists (m ++ b). split; [reflexivity|]. destruct a; [|cbn in P; lia]. cbn in F1. subst r.
    rewrite app_length in Q. destruct b; [|cbn in Q; lia]. rewrite app_nil_r in *. exact T.
Qed.

Lemma trimmed_unique_lemma ws s r1 r2 : trimmed ws s r1 -> trimmed ws s r2 -> r1 = r2.
Proof.
  assert (L : forall a1 a2 t1 t2 : str, a1 ++ t1 = a2 ++ t2 -> (forall c, In c a1 -> white ws c) ->
    (forall c t, t2 = c :: t -> ~ white ws c) -> length a1 <= length a2 \/ t2 = []).
  { induction a1 as [|x a1 IH]; intros a2 t1 t2 E W N; [left; cbn; lia|].
    destruct a2 as [|y a2]; cbn in E.
    - right. destruct t2 as [|c t]; [reflexivity|]. injection E as <- _. exfalso. apply (N x t eq_refl). apply W. left. reflexivity.
    - injection E as _ E. destruct (IH a2 t1 t2 E (fun c H => W c (or_intror H)) N) as [H|H]; [left; cbn; lia|right; exact H]. }
  assert (E0 : forall a b r, (forall c, In c (a ++ r ++ b) -> white ws c) -> (forall c r', r = c :: r' -> ~ white ws c) -> r = []).
  { intros a b [|c r] H N; [reflexivity|]. exfalso. apply (N c r eq_refl). apply H. apply in_or_app. right. left. reflexivity. }
  intros [a1 [b1 [E1 [A1 [B1 [F1 L1]]]]]] [a2 [b2 [E2 [A2 [B2 [F2 L2]]]]]].
  destruct r1 as [|c1 r1'] eqn:R1.
  { symmetry. apply (E0 a2 b2); [|exact F2]. intros c Hc. rewrite <- E2, E1 in Hc. cbn in Hc.
    apply in_app_iff in Hc as [Hc|Hc]; auto. }
  destruct r2 as [|c2 r2'] eqn:R2.
  { apply (E0 a1 b1); [|exact F1]. intros c Hc. rewrite <- E1, E2 in Hc. cbn in Hc.
    apply in_app_iff in Hc as [Hc|Hc]; auto. }
  rewrite <- R1, <- R2 in *.
  assert (N1 : r1 <> []) by (rewrite R1; discriminate). assert (N2 : r2 <> []) by (rewrite R2; discriminate).
  assert (LA : length a1 = length a2).
  { assert (length a1 <= length a2).
    { destruct (L a1 a2 (r1 ++ b1) (r2 ++ b2)) as [H|H]; auto; [congruence| |].
      - intros c t Ec. rewrite R2 in Ec. cbn in Ec. injection Ec as <- _. apply (F2 c2 r2'). exact R2.
      - destruct r2; [congruence|discriminate]. }
    assert (length a2 <= length a1).
    { destruct (L a2 a1 (r2 ++ b2) (r1 ++ b1)) as [H'|H']; auto; [congruence| |].
      - intros c t Ec. rewrite R1 in Ec. cbn in Ec. injection Ec as <- _. apply (F1 c1 r1'). exact R1.
      - destruct r1; [congruence|discriminate]. }
    lia. }
  rewrite E1 in E2.
  assert (HH : a1 = a2 /\ r1 ++ b1 = r2 ++ b2).
  { clear -E2 LA. revert a2 E2 LA. induction a1 as [|x a1 IH]; intros [|y a2] E2 LA; cbn in *; try discriminate; [auto|].
    injection E2 as -> E2. destruct (IH a2 E2) as [-> ->]; [lia|auto]. }
  destruct HH as [_ EB]. apply (f_equal (@rev ascii)) in EB. rewrite !rev_app_distr in EB.
  assert (LB : length (rev b1) = length (rev b2)).
  { assert (LastNW : forall r, r <> [] -> (forall c r', r = r' ++ [c] -> ~ white ws c) -> forall c t, rev r = c :: t -> ~ white ws c).
    { intros r _ H c t Hr. apply (H c (rev t)). rewrite <- (rev_involutive r), Hr. reflexivity. }
    assert (WR : forall b, (forall c, In c b -> white ws c) -> forall c, In c (rev b) -> white ws c).
    { intros b H c Hc. apply H. apply in_rev. exact Hc. }
    assert (NR : forall r : str, r <> [] -> rev r <> []).
    { intros r H K. apply H. rewrite <- (rev_involutive r), K. reflexivity. }
    assert (length (rev b1) <= length (rev b2)).
    { destruct (L (rev b1) (rev b2) (rev r1) (rev r2) EB (WR b1 B1) (LastNW r2 N2 L2)) as [H|H]; [exact H|exfalso; exact (NR r2 N2 H)]. }
    assert (length (rev b2) <= length (rev b1)).
    { destruct (L (rev b2) (rev b1) (rev r2) (rev r1) (eq_sym EB) (WR b2 B2) (LastNW r1 N1 L1)) as [H'|H']; [exact H'|exfalso; exact (NR r1 N1 H')]. }
    lia. }
  assert (K : rev b1 = rev b2 /\ rev r1 = rev r2).
  { clear -EB LB. revert EB LB. generalize (rev b1) (rev b2) (rev r1) (rev r2). intros l. induction l as [|x l IH]; intros [|y m] u v E LL; cbn in *; try discriminate; [auto|].
    injection E as -> E. destruct (IH m u v E) as [-> ->]; [lia|auto]. }
  destruct K as [_ K]. rewrite <- (rev_involutive r1), K, rev_involutive. reflexivity.
Qed.
