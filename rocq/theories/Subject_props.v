(** Theorems about the main subject of a recording (C126). *)

From Coq Require Import List Arith Ascii Bool String Lia.
From Verif Require Import Prelude Str_model Lines_model LocIO_model Subject_model Subject_spec.
Import ListNotations.
Local Open Scope outcome_scope.
Local Open Scope list_scope.

Lemma visible_eq f : List.length (filter negb f) = visible f.
Proof. unfold visible. induction f as [|[] f IH]; cbn; [reflexivity| |]; rewrite ?IH; reflexivity. Qed.
Lemma fold_max : forall frames m, let r := fold_left (fun m fr => Nat.max (List.length (filter negb fr)) m) frames m in
  m <= r /\ (forall f, In f frames -> visible f <= r) /\ (r = m \/ exists f, In f frames /\ visible f = r).
Proof.
  induction frames as [|f frames IH]; intros m; cbn [fold_left]; [split; [lia|]; split; [intros f []|left; reflexivity]|].
  rewrite visible_eq. destruct (IH (Nat.max (visible f) m)) as [A [B C]]. cbn zeta in *. split; [lia|]. split.
  - intros g [<-|G]; [lia|exact (B g G)].
  - destruct C as [C|[g [G1 G2]]]; [|right; exists g; split; [right; exact G1|exact G2]].
    destruct (Nat.le_ge_cases (visible f) m); [left; lia|right; exists f; split; [left; reflexivity|lia]].
Qed.
Lemma count_most s : most_visible s (marker_count (q_frames s)).
Proof. destruct (fold_max (q_frames s) 0) as [_ [B C]]. split; [exact B|exact C]. Qed.
Lemma most_unique s n m : most_visible s n -> most_visible s m -> n = m.
Proof.
  intros [A B] [C D]. apply Nat.le_antisymm.
  - destruct B as [->|[f [F <-]]]; [lia|exact (C f F)].
  - destruct D as [->|[f [F <-]]]; [lia|exact (A f F)].
Qed.

Lemma nth_lt {A} (l : list A) i x : nth_error l i = Some x -> i < List.length l.
Proof. intros H. apply nth_error_Some. congruence. Qed.
Lemma letters_eq c d : In d (lit "unlabeled") -> (same_letter c d <-> to_lower c = d).
Proof.
  intros D. split.
  - intros [->|[i [H1 H2]]].
    + cbn in D. repeat (destruct D as [<-|D]; [reflexivity|]). destruct D.
    + pose proof (nth_lt _ _ _ H1) as L. cbn in L. do 26 (destruct i as [|i]; [cbn in H1, H2; injection H1 as <-; injection H2 as <-; reflexivity|]). lia.
  - intros <-. clear D. unfold same_letter. destruct (Ascii.eqb_spec c (to_lower c)) as [E|E]; [left; exact E|right].
    destruct c as [[] [] [] [] [] [] [] []]; try (exfalso; apply E; reflexivity).
    all: match goal with |- exists i, nth_error _ i = Some ?c /\ _ => exists (nat_of_ascii c - 65); split; reflexivity end.
Qed.
Lemma name_lower : forall name u, (forall d, In d u -> In d (lit "unlabeled")) -> (Forall2 same_letter name u <-> map to_lower name = u).
Proof.
  induction name as [|c name IH]; intros u U; cbn [map].
  - split; [intros H; inversion H; reflexivity|intros <-; constructor].
  - split.
    + intros H. inversion H as [|x d y u' H1 H2]; subst. f_equal; [apply letters_eq; [apply U; left; reflexivity|exact H1]|]. apply IH; [intros; apply U; right; assumption|exact H2].
    + intros <-. constructor; [apply letters_eq; [apply U; left|]; reflexivity|]. apply IH; [intros; apply U; right; assumption|reflexivity].
Qed.
Definition eligible (s : sequence) : bool := negb (s_eqb (map to_lower (q_name s)) []) && negb (s_eqb (map to_lower (q_name s)) (lit "unlabeled")).
Lemma eligible_iff s : eligible s = true <-> has_name s.
Proof.
  unfold eligible, has_name, s_eqb. rewrite (name_lower (q_name s) (lit "unlabeled")) by auto.
  assert (X : map to_lower (q_name s) = [] <-> q_name s = []) by (destruct (q_name s); split; intros H; try reflexivity; discriminate).
  destruct (list_eq_dec ascii_dec (map to_lower (q_name s)) []) as [E|E]; cbn [negb andb]; [split; [discriminate|]; intros [H _]; destruct (H (proj1 X E))|].
  destruct (list_eq_dec ascii_dec (map to_lower (q_name s)) (lit "unlabeled")) as [E'|E']; cbn [negb]; [split; [discriminate|]; intros [_ H]; destruct (H E')|].
  split; [intros _|reflexivity]. split; [intros Y; apply E; apply X; exact Y|exact E'].
Qed.

Definition cnt (s : sequence) : nat := marker_count (q_frames s).
Lemma best_spec : forall seqs k best, let r := best_named k seqs best in
  fst best <= fst r /\
  (forall j s, nth_error seqs j = Some s -> eligible s = true -> cnt s <= fst r) /\
  (r = best \/ exists j s, nth_error seqs j = Some s /\ eligible s = true /\ fst best < cnt s /\ r = (cnt s, k + j) /\
     forall i s', i < j -> nth_error seqs i = Some s' -> eligible s' = true -> cnt s' < cnt s).
Proof.
  induction seqs as [|s seqs IH]; intros k best; cbn [best_named]; cbn zeta.
  - split; [lia|]. split; [intros [] s H; discriminate|left; reflexivity].
  - rewrite <- andb_assoc. change (negb (s_eqb (map to_lower (q_name s)) []) && negb (s_eqb (map to_lower (q_name s)) (lit "unlabeled"))) with (eligible s).
    change (marker_count (q_frames s)) with (cnt s).
    destruct ((fst best <? cnt s) && eligible s) eqn:C.
    + apply andb_prop in C. destruct C as [C1 C2]. apply Nat.ltb_lt in C1. destruct (IH (S k) (cnt s, k)) as [A [B D]]. cbn zeta in *. cbn [fst] in *.
      split; [lia|]. split.
      * intros [|j] s' H E; [cbn in H; injection H as <-; exact A|exact (B j s' H E)].
      * right. destruct D as [D|(j & s' & D1 & D2 & D3 & D4 & D5)].
        -- exists 0, s. rewrite D. cbn [fst]. split; [reflexivity|]. split; [exact C2|]. split; [exact C1|]. split; [f_equal; lia|]. intros i s' Hi. lia.
        -- exists (S j), s'. split; [exact D1|]. split; [exact D2|]. split; [lia|]. split; [rewrite D4; f_equal; lia|].
           intros [|i] s2 Hi H E; [cbn in H; injection H as <-; exact D3|]. apply (D5 i s2); [lia|exact H|exact E].
    + destruct (IH (S k) best) as [A [B D]]. cbn zeta in *. split; [exact A|].
      assert (Z : eligible s = true -> cnt s <= fst best) by (intros E; rewrite E, andb_true_r in C; apply Nat.ltb_ge in C; exact C).
      split.
      * intros [|j] s' H E; [cbn in H; injection H as <-; specialize (Z E); lia|exact (B j s' H E)].
      * destruct D as [D|(j & s' & D1 & D2 & D3 & D4 & D5)]; [left; exact D|]. right. exists (S j), s'. split; [exact D1|]. split; [exact D2|]. split; [exact D3|].
        split; [rewrite D4; f_equal; lia|]. intros [|i] s2 Hi H E; [cbn in H; injection H as <-; specialize (Z E); lia|]. apply (D5 i s2); [lia|exact H|exact E].
Qed.

Lemma main_unique seqs j k : is_main seqs j -> is_main seqs k -> j = k.
Proof.
  intros (s & n & S1 & M1 & P1 & C1) (s' & n' & S2 & M2 & P2 & C2). pose proof (nth_lt _ _ _ S1). pose proof (nth_lt _ _ _ S2).
  destruct C1 as [C1|[N1 C1]]; [lia|]. destruct C2 as [C2|[N2 C2]]; [lia|]. destruct (C1 k s' n' S2 N2 M2) as [A1 A2]. destruct (C2 j s n S1 N1 M1) as [B1 B2]. lia.
Qed.

(** C126. findMainSubjectIndex returns the main subject if there is one, and -1 otherwise. *)
Theorem main_subject_found : forall seqs,
  (forall k, find_main seqs = Some k <-> is_main seqs k) /\ (find_main seqs = None <-> forall k, ~ is_main seqs k).
Proof.
  intros seqs.
  assert (G : match find_main seqs with Some k => is_main seqs k | None => forall k, ~ is_main seqs k end).
  { unfold find_main. destruct seqs as [|s [|s2 seqs]].
    - intros k (s & n & H & _). destruct k; discriminate.
    - destruct (0 <? marker_count (q_frames s)) eqn:C.
      + apply Nat.ltb_lt in C. exists s, (marker_count (q_frames s)). split; [reflexivity|]. split; [apply count_most|]. split; [exact C|left; reflexivity].
      + apply Nat.ltb_ge in C. intros k (s' & n & H & M & P & _). destruct k as [|[]]; try discriminate. cbn in H. injection H as <-. pose proof (most_unique _ _ _ M (count_most s)). lia.
    - cbv zeta. set (all := s :: s2 :: seqs). destruct (best_spec all 0 (0, 0)) as [_ [B D]]. cbn zeta in *. destruct (0 <? fst (best_named 0 all (0, 0))) eqn:C.
      + apply Nat.ltb_lt in C. destruct D as [D|(j & t & D1 & D2 & D3 & D4 & D5)]; [rewrite D in C; cbn in C; lia|]. rewrite D4 in *. cbn [fst snd] in *.
        exists t, (cnt t). split; [exact D1|]. split; [apply count_most|]. split; [exact C|]. right. split; [apply eligible_iff; exact D2|].
        intros i s' n' H N M. rewrite <- (most_unique _ _ _ (count_most s') M). apply eligible_iff in N. split; [exact (B i s' H N)|]. intros L. exact (D5 i s' L H N).
      + apply Nat.ltb_ge in C. intros k (s' & n & H & M & P & [L|[N _]]); [subst all; cbn in L; lia|]. apply eligible_iff in N. pose proof (B k s' H N).
        pose proof (most_unique _ _ _ M (count_most s')) as U. unfold cnt in *. lia. }
  destruct (find_main seqs) as [j|] eqn:E; split.
  - intros k. split; [intros H; injection H as <-; exact G|]. intros H. f_equal. exact (main_unique _ _ _ G H).
  - split; [discriminate|]. intros H. destruct (H j G).
  - intros k. split; [discriminate|]. intros H. destruct (G k H).
  - split; [intros _; exact G|reflexivity].
Qed.
Print Assumptions main_subject_found.

(** C126. What is loaded for the main subject is the main one of the sequences that the loader of the format returns; the only ways not to return are those of the
    loader that are no exceptions. *)
Theorem main_subject_loaded : forall c3d trc glb ext,
  match load_markers c3d trc glb ext with
  | Ok seqs => (forall s, load_main c3d trc glb ext = Ok (Some s) <-> exists k, is_main seqs k /\ nth_error seqs k = Some s) /\
               (load_main c3d trc glb ext = Ok None <-> forall k, ~ is_main seqs k)
  | Throw => False
  | o => load_main c3d trc glb ext = obind o (fun _ => Ok None)
  end.
Proof.
  intros c3d trc glb ext. unfold load_main. destruct (load_markers c3d trc glb ext) as [seqs| | | |] eqn:E; try reflexivity.
  - cbn [obind]. destruct (main_subject_found seqs) as [A B]. destruct (find_main seqs) as [k|] eqn:F.
    + pose proof (proj1 (A k) eq_refl) as Mk. pose proof Mk as (s & n & S1 & _). rewrite S1. split.
      * intros s'. split; [intros H; injection H as <-; exists k; auto|]. intros (j & J1 & J2). rewrite (main_unique _ _ _ J1 Mk), S1 in J2. injection J2 as ->. reflexivity.
      * split; [discriminate|]. intros H. destruct (H k Mk).
    + split; [|split; [intros _; apply B; reflexivity|reflexivity]]. intros s. split; [discriminate|]. intros (j & J & _). destruct (proj1 B eq_refl j J).
  - unfold load_markers in E. destruct (s_eqb ext (lit ".c3d")); [destruct c3d; discriminate|]. destruct (s_eqb ext (lit ".trc")); [destruct trc; discriminate|].
    destruct (s_eqb ext (lit ".glb")); [destruct glb; discriminate|discriminate].
Qed.
Print Assumptions main_subject_loaded.

(** ** Examples *)

Definition exsu_actor : sequence := Sequence (lit "Ana") [[false; true; true]; [false; false; true]].
Definition exsu_other : sequence := Sequence (lit "ball") [[false; false]].
Definition exsu_rest : sequence := Sequence (lit "Unlabeled") [[false; false; false; false; false]].
Example exsu_found : find_main [exsu_rest; exsu_actor; exsu_other] = Some 1 /\ is_main [exsu_rest; exsu_actor; exsu_other] 1.
Proof. split; [reflexivity|]. apply (proj1 (main_subject_found _) 1). reflexivity. Qed.
Example exsu_loaded : load_main (Ok [exsu_rest; exsu_actor]) Throw UB (lit ".c3d") = Ok (Some exsu_actor).
Proof. reflexivity. Qed.

(** ** Findings *)

(** C126. A recording of a single subject next to markers without a name has no main subject if the subject has no name either, although the same subject alone has. *)
Theorem unnamed_subject_refuted : exists s t, (exists n, most_visible s n /\ 0 < n) /\ find_main [s] = Some 0 /\ find_main [s; t] = None.
Proof.
  exists (Sequence [] [[false; false]]), exsu_rest. split; [exists 2; split; [exact (count_most (Sequence [] [[false; false]]))|lia]|]. split; reflexivity.
Qed.
Print Assumptions unnamed_subject_refuted.

(** C126. A file that cannot be read, one of an unknown type and one without markers give the same result. *)
Theorem marker_errors_hidden_refuted : exists ext ext', load_markers Throw (Ok []) UB ext = Ok [] /\ load_markers Throw (Ok []) UB ext' = Ok [] /\
  load_markers (Ok [exsu_actor]) (Ok []) UB (lit ".C3D") = Ok [] /\ ext = lit ".c3d" /\ ext' = lit ".trc".
Proof. exists (lit ".c3d"), (lit ".trc"). repeat split. Qed.
Print Assumptions marker_errors_hidden_refuted.
