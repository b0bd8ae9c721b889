(** C130: the skeleton of a glTF file. *)

From Coq Require Import List Arith ZArith Ascii Bool String Lia Permutation Sorted.
From Verif Require Import Prelude Loops Str_model Lines_model Marker_model LocIO_model GltfTree_model GltfTree_spec.
Import ListNotations.
Local Open Scope list_scope.
Local Open Scope outcome_scope.

Definition items (k : gkind) (st : gstate) : list (Z * option nat) :=
  match k with KCapsule => g_capsules st | KLocator => g_locators st | KJoint => g_joints st | KNone => [] end.
Definition is_kind (use_ext : bool) (k : gkind) (node : gnode) : Prop :=
  match k with KCapsule => is_capsule node | KLocator => is_locator node | KJoint => is_joint use_ext node | KNone => False end.

Lemma seqb a b : s_eqb a b = true <-> a = b.
Proof. unfold s_eqb. destruct (list_eq_dec ascii_dec a b); split; congruence. Qed.
Lemma kind_of_is u k node : k <> KNone -> is_kind u k node <-> kind_of u node = k.
Proof.
  intros NN. unfold kind_of. destruct (s_eqb (g_type node) (lit "collision_capsule")) eqn:A.
  { apply seqb in A. destruct k; cbn; unfold is_capsule, is_locator, is_joint; rewrite ?A; split; try discriminate; try congruence; auto. intros [Q|[_ [_ [Q _]]]]; [discriminate|congruence]. }
  assert (A' : g_type node <> lit "collision_capsule") by (intros Q; apply seqb in Q; congruence).
  destruct (s_eqb (g_type node) (lit "locator")) eqn:B.
  { apply seqb in B. destruct k; cbn; unfold is_capsule, is_locator, is_joint; rewrite ?B; split; try discriminate; try congruence; auto. intros [Q|[_ [_ [_ Q]]]]; [discriminate|congruence]. }
  assert (B' : g_type node <> lit "locator") by (intros Q; apply seqb in Q; congruence).
  assert (J : is_joint u node <-> (negb u && negb (g_mesh node)) || s_eqb (g_type node) (lit "skeleton_joint") = true).
  { unfold is_joint. rewrite orb_true_iff, andb_true_iff, !negb_true_iff, seqb. tauto. }
  destruct ((negb u && negb (g_mesh node)) || s_eqb (g_type node) (lit "skeleton_joint")); destruct k; cbn; unfold is_capsule, is_locator; rewrite ?J; split; try discriminate; try congruence; auto.
Qed.

Section Doc.
Context (nodes : list gnode) (u : bool).
Notation takes := (takes_part nodes).
Notation bel := (below nodes u).

Lemma parent_more js l b q : parent_is js b q -> parent_is (js ++ l) b q.
Proof. destruct b as [m|], q as [i|]; cbn; auto. intros [p E]. exists p. rewrite nth_error_app1; [exact E|]. apply nth_error_Some. congruence. Qed.

(** [l] are the objects of kind [k] below the given places. *)
Definition found (k : gkind) (js : list (Z * option nat)) (where_ : Z -> option Z -> Prop) (l : list (Z * option nat)) : Prop :=
  (forall m p, In (m, p) l -> exists b node, where_ m b /\ takes m node /\ is_kind u k node /\ parent_is js b p) /\
  (forall m b node, where_ m b -> takes m node -> is_kind u k node -> exists p, In (m, p) l /\ parent_is js b p).
Definition adds (st st' : gstate) (where_ : Z -> option Z -> Prop) : Prop :=
  forall k, k <> KNone -> exists l, items k st' = items k st ++ l /\ found k (g_joints st') where_ l.
Lemma found_more k js l' w l : found k js w l -> found k (js ++ l') w l.
Proof.
  intros [A B]. split; [intros m p I; destruct (A m p I) as [b [node [W [T [K P]]]]]; exists b, node; repeat split; auto; apply T || apply parent_more; exact P|].
  intros m b node W T K. destruct (B m b node W T K) as [p [I P]]. exists p. split; [exact I|apply parent_more; exact P].
Qed.
Lemma adds_joints st st' w : adds st st' w -> exists l, g_joints st' = g_joints st ++ l.
Proof. intros H. destruct (H KJoint) as [l [E _]]; [discriminate|]. exists l. exact E. Qed.

Lemma each_child_adds f a q : (forall c st st', parent_is (g_joints st) a q -> f c st = Ok st' -> adds st st' (bel c a)) ->
  forall cs st st', parent_is (g_joints st) a q -> each_child f cs st = Ok st' -> adds st st' (fun m b => exists c, In c cs /\ bel c a m b).
Proof.
  intros F. induction cs as [|c cs IH]; intros st st' P H; cbn [each_child] in H.
  { injection H as <-. intros k _. exists []. rewrite app_nil_r. split; [reflexivity|]. split; [intros m p []|intros m b node [c [[] _]]]. }
  destruct (f c st) as [st1| | | |] eqn:E; try discriminate. cbn [obind] in H. pose proof (F c st st1 P E) as A1. destruct (adds_joints _ _ _ A1) as [l1 J1].
  assert (P1 : parent_is (g_joints st1) a q) by (rewrite J1; apply parent_more; exact P). pose proof (IH st1 st' P1 H) as A2. destruct (adds_joints _ _ _ A2) as [l2 J2].
  intros k NN. destruct (A1 k NN) as [x [X1 X2]]. destruct (A2 k NN) as [y [Y1 [Y2 Y3]]]. exists (x ++ y). split; [rewrite Y1, X1, app_assoc; reflexivity|].
  apply (found_more _ _ l2) in X2. rewrite <- J2 in X2. destruct X2 as [X2 X3]. split.
  - intros m p I. apply in_app_or in I. destruct I as [I|I].
    + destruct (X2 m p I) as [b [node [W R]]]. exists b, node. split; [exists c; split; [left; reflexivity|exact W]|exact R].
    + destruct (Y2 m p I) as [b [node [[c' [I' W]] R]]]. exists b, node. split; [exists c'; split; [right; exact I'|exact W]|exact R].
  - intros m b node [c' [[<-|I'] W]] T K.
    + destruct (X3 m b node W T K) as [p [I R]]. exists p. split; [apply in_or_app; left; exact I|exact R].
    + destruct (Y3 m b node (ex_intro _ c' (conj I' W)) T K) as [p [I R]]. exists p. split; [apply in_or_app; right; exact I|exact R].
Qed.

Lemma load_adds : forall fuel n q a st st', parent_is (g_joints st) a q -> load_node nodes u fuel n q st = Ok st' -> adds st st' (bel n a).
Proof.
  induction fuel as [|fuel IH]; intros n q a st st' P H; [discriminate|]. cbn [load_node] in H. destruct ((n <? 0) || (Z.of_nat (List.length nodes) <? n))%Z eqn:R; [discriminate|]. apply orb_false_iff in R. destruct R as [R _]. apply Z.ltb_ge in R.
  destruct (nth_error nodes (Z.to_nat n)) as [node|] eqn:E; [|discriminate]. destruct (hierarchy_node node) eqn:HN; cbn [negb] in H.
  2: { injection H as <-. intros k _. exists []. rewrite app_nil_r. split; [reflexivity|]. assert (NT : forall nd, ~ takes n nd).
       { intros nd [_ [E' [S C]]]. rewrite E in E'. injection E' as <-. unfold hierarchy_node in HN. rewrite S, C in HN. discriminate. }
       split; [intros m p []|]. intros m b nd W T _. exfalso. inversion W; subst; eapply NT; eauto. }
  assert (T : takes n node).
  { unfold hierarchy_node in HN. apply andb_true_iff in HN. destruct HN as [S C]. apply negb_true_iff in S, C. split; [exact R|]. split; [exact E|]. split; assumption. }
  assert (TU : forall nd, takes n nd -> nd = node) by (intros nd [_ [E' _]]; congruence).
  destruct (visit (kind_of u node) n q st) as [[st1 q1]| | | |] eqn:V; try discriminate. cbn [obind fst snd] in H.
  set (a1 := match kind_of u node with KJoint => Some n | _ => a end).
  assert (VV : parent_is (g_joints st1) a1 q1 /\ forall k, k <> KNone -> items k st1 = items k st ++ (match kind_of u node, k with KCapsule, KCapsule | KLocator, KLocator | KJoint, KJoint => [(n, q)] | _, _ => [] end)).
  { unfold a1. destruct (kind_of u node); cbn [visit] in V.
    - destruct q as [i|]; [|discriminate]. injection V as <- <-. cbn [g_joints]. split; [exact P|]. intros [] NN; cbn; rewrite ?app_nil_r; reflexivity.
    - destruct q as [i|]; [|discriminate]. injection V as <- <-. cbn [g_joints]. split; [exact P|]. intros [] NN; cbn; rewrite ?app_nil_r; reflexivity.
    - injection V as <- <-. cbn [g_joints parent_is]. split; [exists q; rewrite nth_error_app2 by lia; rewrite Nat.sub_diag; reflexivity|]. intros [] NN; cbn; rewrite ?app_nil_r; reflexivity.
    - injection V as <- <-. split; [exact P|]. intros [] NN; cbn; rewrite ?app_nil_r; reflexivity. }
  destruct VV as [P1 I1]. assert (J1 : exists l, g_joints st1 = g_joints st ++ l) by (eexists; exact (I1 KJoint ltac:(discriminate))). destruct J1 as [lj J1].
  assert (A : adds st1 st' (fun m b => exists c, In c (g_children node) /\ bel c a1 m b)).
  { apply (each_child_adds (fun c st => load_node nodes u fuel c q1 st) a1 q1); [intros c s s' P' H'; exact (IH c q1 a1 s s' P' H')|exact P1|exact H]. }
  destruct (adds_joints _ _ _ A) as [l2 J2].
  assert (PQ : parent_is (g_joints st') a q) by (rewrite J2, J1; apply parent_more, parent_more; exact P).
  assert (BJ : kind_of u node = KJoint <-> is_joint u node) by (symmetry; apply (kind_of_is u KJoint node); discriminate).
  assert (B1 : forall c m b, In c (g_children node) -> bel c a1 m b -> bel n a m b).
  { intros c m b I W. unfold a1 in W. destruct (kind_of u node) eqn:KO; [|..];
      [eapply below_other|eapply below_other|eapply below_joint|eapply below_other]; try exact T; try exact I; try exact W; try (apply BJ; reflexivity); intros Q; apply BJ in Q; discriminate. }
  assert (B2 : forall m b, bel n a m b -> (m = n /\ b = a) \/ exists c, In c (g_children node) /\ bel c a1 m b).
  { intros m b W. inversion W as [|? ? nd c ? ? T' K' I' W'|? ? nd c ? ? T' K' I' W']; subst; [left; split; reflexivity| |]; right; rewrite (TU _ T') in *; exists c; (split; [exact I'|]); unfold a1.
    - apply BJ in K'. rewrite K'. exact W'.
    - destruct (kind_of u node); try exact W'. exfalso. apply K'. apply BJ. reflexivity. }
  intros k NN. destruct (A k NN) as [y [Y1 [Y2 Y3]]]. rewrite (I1 k NN) in Y1. set (x := match kind_of u node, k with KCapsule, KCapsule | KLocator, KLocator | KJoint, KJoint => [(n, q)] | _, _ => [] end) in *.
  assert (X : forall m p, In (m, p) x <-> m = n /\ p = q /\ kind_of u node = k).
  { intros m p. unfold x. destruct (kind_of u node), k; cbn; split; try (intros []); try (intros [_ [_ Q]]; discriminate); try congruence; try (intros [Q|[]]; injection Q as <- <-; auto); try (intros [-> [-> _]]; left; reflexivity); intuition congruence. }
  exists (x ++ y). split; [rewrite Y1, app_assoc; reflexivity|]. split.
  - intros m p I. apply in_app_or in I. destruct I as [I|I].
    + apply X in I. destruct I as [-> [-> KO]]. exists a, node. split; [apply below_here|]. split; [exact T|]. split; [apply kind_of_is; assumption|exact PQ].
    + destruct (Y2 m p I) as [b [nd [[c [I' W]] R']]]. exists b, nd. split; [exact (B1 c m b I' W)|exact R'].
  - intros m b nd W T' K. destruct (B2 m b W) as [[-> ->]|W'].
    + rewrite (TU _ T') in K. exists q. split; [apply in_or_app; left; apply X; repeat split; apply kind_of_is; assumption|exact PQ].
    + destruct (Y3 m b nd W' T' K) as [p [I R']]. exists p. split; [apply in_or_app; right; exact I|exact R'].
Qed.

(** ** Parents come first *)
Definition ordered (st : gstate) : Prop :=
  (forall i m k, nth_error (g_joints st) i = Some (m, Some k) -> k < i) /\
  (forall m p, In (m, p) (g_capsules st) \/ In (m, p) (g_locators st) -> exists k, p = Some k /\ k < List.length (g_joints st)).
Lemma load_ordered : forall fuel n q st st', ordered st -> (forall k, q = Some k -> k < List.length (g_joints st)) -> load_node nodes u fuel n q st = Ok st' -> ordered st' /\ List.length (g_joints st) <= List.length (g_joints st').
Proof.
  induction fuel as [|fuel IH]; intros n q st st' OR Q H; [discriminate|]. cbn [load_node] in H. destruct ((n <? 0) || (Z.of_nat (List.length nodes) <? n))%Z; [discriminate|].
  destruct (nth_error nodes (Z.to_nat n)) as [node|]; [|discriminate]. destruct (hierarchy_node node); cbn [negb] in H; [|injection H as <-; split; [exact OR|lia]].
  destruct (visit (kind_of u node) n q st) as [[st1 q1]| | | |] eqn:V; try discriminate. cbn [obind fst snd] in H.
  assert (X : ordered st1 /\ List.length (g_joints st) <= List.length (g_joints st1) /\ forall k, q1 = Some k -> k < List.length (g_joints st1)).
  { destruct OR as [O1 O2]. destruct (kind_of u node); cbn [visit] in V.
    - destruct q as [i|]; [|discriminate]. injection V as <- <-. cbn. split; [split; [exact O1|]|auto]. cbn. intros m p [I|I]; [|exact (O2 m p (or_intror I))]. apply in_app_or in I. destruct I as [I|[I|[]]]; [exact (O2 m p (or_introl I))|]. injection I as <- <-. exists i. auto.
    - destruct q as [i|]; [|discriminate]. injection V as <- <-. cbn. split; [split; [exact O1|]|auto]. cbn. intros m p [I|I]; [exact (O2 m p (or_introl I))|]. apply in_app_or in I. destruct I as [I|[I|[]]]; [exact (O2 m p (or_intror I))|]. injection I as <- <-. exists i. auto.
    - injection V as <- <-. cbn. rewrite app_length. cbn. split; [split; cbn|split; [lia|intros k Q1; injection Q1 as <-; lia]].
      + intros i m k E. destruct (Nat.lt_ge_cases i (List.length (g_joints st))) as [L|L]; [rewrite nth_error_app1 in E by exact L; exact (O1 _ _ _ E)|]. rewrite nth_error_app2 in E by exact L.
        destruct (i - List.length (g_joints st)) as [|d] eqn:D; [|destruct d; discriminate]. cbn in E. injection E as <- Q1. specialize (Q _ Q1). lia.
      + intros m p I. destruct (O2 m p I) as [k [-> L]]. exists k. split; [reflexivity|]. rewrite app_length. cbn. lia.
    - injection V as <- <-. split; [split; [exact O1|exact O2]|auto]. }
  destruct X as [OR1 [L1 Q1]]. clear V OR Q. revert st1 OR1 L1 Q1 H. induction (g_children node) as [|c cs IHc]; intros st1 OR1 L1 Q1 H; cbn [each_child] in H; [injection H as <-; split; assumption|].
  destruct (load_node nodes u fuel c q1 st1) as [st2| | | |] eqn:E; try discriminate. cbn [obind] in H. destruct (IH c q1 st1 st2 OR1 Q1 E) as [OR2 L2].
  apply (IHc st2 OR2); [lia|intros k K; specialize (Q1 k K); lia|exact H].
Qed.

(** ** How it ends *)
Lemma each_child_not f (o : outcome gstate) : (forall st, o <> Ok st) -> forall cs, (forall c st, In c cs -> f c st <> o) -> forall st, each_child f cs st <> o.
Proof.
  intros NO. induction cs as [|c cs IH]; intros F st; cbn [each_child]; [intros Q; exact (NO st (eq_sym Q))|]. specialize (F c st (or_introl eq_refl)) as F1. destruct (f c st) as [st1| | | |]; cbn [obind]; try exact F1.
  apply IH. intros c' s I. apply F. right. exact I.
Qed.
Lemma takes_of n node : ((n <? 0) || (Z.of_nat (List.length nodes) <? n))%Z = false -> nth_error nodes (Z.to_nat n) = Some node -> hierarchy_node node = true -> takes n node.
Proof.
  intros R E H. apply orb_false_iff in R. destruct R as [R _]. apply Z.ltb_ge in R. unfold hierarchy_node in H. apply andb_true_iff in H. destruct H as [S C]. apply negb_true_iff in S, C. repeat split; assumption.
Qed.
Lemma load_ends rank : decreasing nodes rank -> forall fuel n q st, rank n < fuel -> load_node nodes u fuel n q st <> OutOfFuel.
Proof.
  intros D. induction fuel as [|fuel IH]; intros n q st L; [lia|]. cbn [load_node]. destruct ((n <? 0) || (Z.of_nat (List.length nodes) <? n))%Z eqn:R; [discriminate|].
  destruct (nth_error nodes (Z.to_nat n)) as [node|] eqn:E; [|discriminate]. destruct (hierarchy_node node) eqn:HN; cbn [negb]; [|discriminate]. pose proof (takes_of n node R E HN) as T.
  destruct (visit (kind_of u node) n q st) as [[st1 q1]| | | |] eqn:V; cbn [obind]; try discriminate; [|destruct (kind_of u node), q; discriminate].
  apply each_child_not; [discriminate|]. intros c s I. apply IH. specialize (D n node c T I). lia.
Qed.
Lemma load_defined : (forall n node c, takes n node -> In c (g_children node) -> c <> Z.of_nat (List.length nodes)) -> forall fuel n q st, n <> Z.of_nat (List.length nodes) -> load_node nodes u fuel n q st <> UB.
Proof.
  intros D. induction fuel as [|fuel IH]; intros n q st L; [discriminate|]. cbn [load_node]. destruct ((n <? 0) || (Z.of_nat (List.length nodes) <? n))%Z eqn:R; [discriminate|].
  destruct (nth_error nodes (Z.to_nat n)) as [node|] eqn:E; [|apply nth_error_None in E; apply orb_false_iff in R; destruct R as [R1 R2]; apply Z.ltb_ge in R1, R2; lia].
  destruct (hierarchy_node node) eqn:HN; cbn [negb]; [|discriminate]. pose proof (takes_of n node R E HN) as T.
  destruct (visit (kind_of u node) n q st) as [[st1 q1]| | | |] eqn:V; cbn [obind]; try discriminate; [|destruct (kind_of u node), q; discriminate].
  apply each_child_not; [discriminate|]. intros c s I. apply IH. exact (D n node c T I).
Qed.

(** ** The map *)
Lemma upd_length {X} (l : list X) : forall i x, List.length (upd l i x) = List.length l.
Proof. induction l as [|y l IH]; intros [|i] x; cbn; auto. Qed.
Lemma upd_nth {X} (l : list X) : forall i x k, nth_error (upd l i x) k = if k =? i then option_map (fun _ => x) (nth_error l k) else nth_error l k.
Proof. induction l as [|y l IH]; intros [|i] x [|k]; cbn; auto. destruct (k =? i); reflexivity. Qed.
Definition mapped (st : gstate) : Prop :=
  forall n node i, (0 <= n)%Z -> nth_error nodes (Z.to_nat n) = Some node -> nth_error (g_map st) (Z.to_nat n) = Some (Some i) -> exists p, nth_error (items (kind_of u node) st) i = Some (n, p).
Lemma load_mapped : forall fuel n q st st', mapped st -> load_node nodes u fuel n q st = Ok st' -> mapped st'.
Proof.
  induction fuel as [|fuel IH]; intros n q st st' M H; [discriminate|]. cbn [load_node] in H. destruct ((n <? 0) || (Z.of_nat (List.length nodes) <? n))%Z eqn:R; [discriminate|].
  destruct (nth_error nodes (Z.to_nat n)) as [node|] eqn:E; [|discriminate]. destruct (hierarchy_node node) eqn:HN; cbn [negb] in H; [|injection H as <-; exact M]. pose proof (takes_of n node R E HN) as [Rn _].
  destruct (visit (kind_of u node) n q st) as [[st1 q1]| | | |] eqn:V; try discriminate. cbn [obind fst snd] in H.
  assert (M1 : mapped st1).
  { assert (G : forall st2 k, kind_of u node = k -> k <> KNone -> (forall k', k' <> k -> items k' st2 = items k' st) -> items k st2 = items k st ++ [(n, q)] -> g_map st2 = upd (g_map st) (Z.to_nat n) (Some (List.length (items k st))) -> mapped st2).
    { intros st2 k KO NN OT IT MP n' node' i R' E' X. rewrite MP, upd_nth in X. destruct (Z.to_nat n' =? Z.to_nat n) eqn:Q.
      - apply Nat.eqb_eq in Q. assert (n' = n) by lia. subst n'. rewrite E in E'. injection E' as <-. destruct (nth_error (g_map st) (Z.to_nat n)); [|discriminate]. cbn in X. injection X as <-. rewrite KO, IT. exists q.
        rewrite nth_error_app2 by lia. rewrite Nat.sub_diag. reflexivity.
      - destruct (M n' node' i R' E' X) as [p P]. exists p. assert (D : {kind_of u node' = k} + {kind_of u node' <> k}) by decide equality. destruct D as [D|D]; [|rewrite (OT _ D); exact P].
        rewrite D in *. rewrite IT. rewrite nth_error_app1; [exact P|]. apply nth_error_Some. congruence. }
    destruct (kind_of u node) eqn:KO; cbn [visit] in V.
    - destruct q as [j|]; [|discriminate]. injection V as <- <-. apply (G _ KCapsule eq_refl); [discriminate|intros [] D; try reflexivity; congruence|reflexivity|reflexivity].
    - destruct q as [j|]; [|discriminate]. injection V as <- <-. apply (G _ KLocator eq_refl); [discriminate|intros [] D; try reflexivity; congruence|reflexivity|reflexivity].
    - injection V as <- <-. apply (G _ KJoint eq_refl); [discriminate|intros [] D; try reflexivity; congruence|reflexivity|reflexivity].
    - injection V as <- <-. exact M. }
  clear V M. revert st1 M1 H. induction (g_children node) as [|c cs IHc]; intros st1 M1 H; cbn [each_child] in H; [injection H as <-; exact M1|].
  destruct (load_node nodes u fuel c q1 st1) as [st2| | | |] eqn:E2; try discriminate. cbn [obind] in H. exact (IHc st2 (IH _ _ _ _ M1 E2) H).
Qed.

Lemma roots_first fuel : forall roots st st', g_joints st = [] -> g_capsules st = [] -> g_locators st = [] -> mapped st -> load_roots nodes u fuel roots st = Ok st' ->
  mapped st' /\ ordered st' /\ (g_joints st' = [] /\ g_capsules st' = [] /\ g_locators st' = [] /\ (forall r m b node, In r roots -> bel r None m b -> takes m node -> ~ is_joint u node) \/ exists before r after, roots = before ++ r :: after /\ (forall r' m b node, In r' before -> bel r' None m b -> takes m node -> ~ is_joint u node) /\ forall k, k <> KNone -> found k (g_joints st') (bel r None) (items k st')).
Proof.
  induction roots as [|r roots IH]; intros st st' J C L M H; cbn [load_roots] in H.
  { injection H as <-. split; [exact M|]. split; [|left; repeat split; auto; intros r m b node []]. split; [rewrite J; intros i m k E; destruct i; discriminate|rewrite C, L; intros m p [[]|[]]]. }
  destruct (load_node nodes u fuel r None st) as [st1| | | |] eqn:E; try discriminate. cbn [obind] in H. pose proof (load_mapped _ _ _ _ _ M E) as M1.
  assert (O0 : ordered st) by (split; [rewrite J; intros i m k X; destruct i; discriminate|rewrite C, L; intros m p [[]|[]]]).
  destruct (load_ordered _ _ _ _ _ O0 (fun k (Q : None = Some k) => False_ind _ (eq_ind None (fun o => match o with None => True | Some _ => False end) Logic.I _ Q)) E) as [O1 _]. pose proof (load_adds fuel r None None st st1 Logic.I E) as A.
  destruct (g_joints st1) as [|j js] eqn:EJ.
  - assert (N : g_capsules st1 = [] /\ g_locators st1 = []).
    { destruct O1 as [_ O1]. rewrite EJ in O1. split.
      - destruct (g_capsules st1) as [|[m p] l]; [reflexivity|]. destruct (O1 m p (or_introl (or_introl eq_refl))) as [k [_ X]]. cbn in X. lia.
      - destruct (g_locators st1) as [|[m p] l]; [reflexivity|]. destruct (O1 m p (or_intror (or_introl eq_refl))) as [k [_ X]]. cbn in X. lia. }
    destruct N as [N1 N2]. destruct (IH st1 st' EJ N1 N2 M1 H) as [A1 [A2 A3]]. split; [exact A1|]. split; [exact A2|]. assert (R0 : forall m b node, below nodes u r None m b -> takes_part nodes m node -> ~ is_joint u node); [|destruct A3 as [[B1 [B2 [B3 A3]]]|[bf [r' [af [-> [A3 A4]]]]]]].
    2: { left. repeat split; try assumption. intros r2 m b node [<-|I2]; [apply R0|exact (A3 r2 m b node I2)]. }
    2: { right. exists (r :: bf), r', af. split; [reflexivity|]. split; [|exact A4]. intros r2 m b node [<-|I2]; [apply R0|exact (A3 r2 m b node I2)]. }
    intros m b node W T K. destruct (A KJoint ltac:(discriminate)) as [l [X [_ Y]]]. cbn [items] in X. rewrite EJ, J in X. cbn in X. subst l. destruct (Y m b node W T K) as [p [[] _]].
  - injection H as <-. split; [exact M1|]. split; [exact O1|]. right. exists [], r, roots. split; [reflexivity|]. split; [intros r' m b node []|]. intros k NN. destruct (A k NN) as [l [X Y]]. rewrite X. destruct k; cbn [items]; rewrite ?J, ?C, ?L; exact Y.
Qed.
End Doc.

Lemma ins_perm x l : Permutation (x :: l) (ins x l).
Proof. induction l as [|y l IH]; [reflexivity|]. cbn. destruct (parent_le x y); [reflexivity|]. rewrite perm_swap. constructor. exact IH. Qed.
Lemma by_parent_perm l : Permutation l (by_parent l).
Proof. induction l as [|x l IH]; [reflexivity|]. cbn. rewrite <- ins_perm. constructor. exact IH. Qed.
Lemma found_perm nodes u k js w l l' : Permutation l l' -> found nodes u k js w l -> found nodes u k js w l'.
Proof.
  intros P [A B]. split; [intros m p I; apply A; apply (Permutation_in _ (Permutation_sym P)); exact I|]. intros m b nd W T K. destruct (B m b nd W T K) as [p [I R]]. exists p. split; [exact (Permutation_in _ P I)|exact R].
Qed.

(** C130. The objects of the first root with joints are loaded, and no others: every joint, capsule and locator below the root is there with the last joint above it as parent; or no root has joints and there is nothing. *)
Theorem hierarchy_loaded nodes u fuel roots st : load_hierarchy nodes u fuel roots = Ok st ->
  (g_joints st = [] /\ g_capsules st = [] /\ g_locators st = [] /\ forall r m b node, In r roots -> below nodes u r None m b -> takes_part nodes m node -> ~ is_joint u node) \/
  exists before r after, roots = before ++ r :: after /\ (forall r' m b node, In r' before -> below nodes u r' None m b -> takes_part nodes m node -> ~ is_joint u node) /\ forall is l, In (is, l) [(is_joint u, g_joints st); (is_capsule, g_capsules st); (is_locator, g_locators st)] ->
    (forall m p, In (m, p) l -> exists b node, below nodes u r None m b /\ takes_part nodes m node /\ is node /\ parent_is (g_joints st) b p) /\
    (forall m b node, below nodes u r None m b -> takes_part nodes m node -> is node -> exists p, In (m, p) l /\ parent_is (g_joints st) b p).
Proof.
  unfold load_hierarchy. intros H. destruct (load_roots nodes u fuel roots _) as [s| | | |] eqn:E; try discriminate. cbn [obind] in H. injection H as <-. cbn [g_joints g_capsules g_locators].
  destruct (fun M0 => roots_first nodes u fuel roots (GS [] [] [] (repeat None (List.length nodes))) s eq_refl eq_refl eq_refl M0 E) as [_ [_ C]].
  { intros n node i _ _ X. cbn in X. exfalso. apply nth_error_In in X. apply repeat_spec in X. discriminate. }
  destruct C as [[-> [-> [-> N]]]|[bf [r [af [E' [B F]]]]]]; [left; repeat split; auto|]. right. exists bf, r, af. split; [exact E'|]. split; [exact B|]. intros is l [Q|[Q|[Q|[]]]]; injection Q as <- <-.
  - exact (F KJoint ltac:(discriminate)).
  - exact (found_perm nodes u KCapsule _ _ _ _ (by_parent_perm _) (F KCapsule ltac:(discriminate))).
  - exact (found_perm nodes u KLocator _ _ _ _ (by_parent_perm _) (F KLocator ltac:(discriminate))).
Qed.
Print Assumptions hierarchy_loaded.

(** C130. Parents of joints come before them, and capsules and locators have a joint as parent, whatever the file. *)
Theorem hierarchy_ordered nodes u fuel roots st : load_hierarchy nodes u fuel roots = Ok st ->
  (forall i m k, nth_error (g_joints st) i = Some (m, Some k) -> k < i) /\
  (forall m p, In (m, p) (g_capsules st) \/ In (m, p) (g_locators st) -> exists k, p = Some k /\ k < List.length (g_joints st)).
Proof.
  unfold load_hierarchy. intros H. destruct (load_roots nodes u fuel roots _) as [s| | | |] eqn:E; try discriminate. cbn [obind] in H. injection H as <-. cbn [g_joints g_capsules g_locators].
  destruct (fun M0 => roots_first nodes u fuel roots (GS [] [] [] (repeat None (List.length nodes))) s eq_refl eq_refl eq_refl M0 E) as [_ [[O1 O2] _]].
  { intros n node i _ _ X. cbn in X. exfalso. apply nth_error_In in X. apply repeat_spec in X. discriminate. }
  split; [exact O1|]. intros m p I. apply (O2 m p). destruct I as [I|I]; [left|right]; exact (Permutation_in _ (Permutation_sym (by_parent_perm _)) I).
Qed.
Print Assumptions hierarchy_ordered.

Definition not_after (a b : Z * option nat) : Prop := match snd a, snd b with None, _ => True | Some _, None => False | Some i, Some k => i <= k end.
Lemma not_after_le a b : parent_le a b = true <-> not_after a b.
Proof. unfold parent_le, not_after. destruct (snd a), (snd b); rewrite ?Nat.leb_le; intuition discriminate. Qed.
Lemma ins_sorted x l : StronglySorted not_after l -> StronglySorted not_after (ins x l).
Proof.
  intros S. induction S as [|y l S IH F]; cbn [ins]; [repeat constructor|]. destruct (parent_le x y) eqn:L.
  - apply not_after_le in L. constructor; [constructor; assumption|]. constructor; [exact L|]. eapply Forall_impl; [|exact F]. intros z Z. unfold not_after in *. destruct (snd x), (snd y), (snd z); auto; try tauto. lia.
  - constructor; [exact IH|]. apply (Permutation_Forall (ins_perm x l)). constructor; [|exact F]. unfold parent_le in L. unfold not_after. destruct (snd x), (snd y); try discriminate; auto. apply Nat.leb_gt in L. lia.
Qed.
(** C130. Capsules and locators are sorted by their parents. *)
Theorem hierarchy_sorted nodes u fuel roots st : load_hierarchy nodes u fuel roots = Ok st -> StronglySorted not_after (g_capsules st) /\ StronglySorted not_after (g_locators st).
Proof.
  unfold load_hierarchy. intros H. destruct (load_roots nodes u fuel roots _) as [s| | | |]; try discriminate. cbn [obind] in H. injection H as <-. cbn [g_capsules g_locators].
  assert (G : forall l, StronglySorted not_after (by_parent l)) by (induction l as [|x l IH]; [constructor|apply ins_sorted; exact IH]). split; apply G.
Qed.
Print Assumptions hierarchy_sorted.

(** C130. The map gives for a node that is a joint the joint that was made from it. *)
Theorem hierarchy_map nodes u fuel roots st n node i : load_hierarchy nodes u fuel roots = Ok st -> takes_part nodes n node -> is_joint u node -> nth_error (g_map st) (Z.to_nat n) = Some (Some i) ->
  exists p, nth_error (g_joints st) i = Some (n, p).
Proof.
  unfold load_hierarchy. intros H T K X. destruct (load_roots nodes u fuel roots _) as [s| | | |] eqn:E; try discriminate. cbn [obind] in H. injection H as <-. cbn [g_joints g_map] in *.
  destruct (fun M0 => roots_first nodes u fuel roots (GS [] [] [] (repeat None (List.length nodes))) s eq_refl eq_refl eq_refl M0 E) as [M _].
  { intros n' node' i' _ _ Y. cbn in Y. exfalso. apply nth_error_In in Y. apply repeat_spec in Y. discriminate. }
  destruct T as [R [E' _]]. destruct (M n node i R E' X) as [p P]. assert (KO : kind_of u node = KJoint) by (apply (kind_of_is u KJoint node); [discriminate|exact K]). rewrite KO in P. exists p. exact P.
Qed.
Print Assumptions hierarchy_map.

(** C130. Without cycles loading ends, with a recursion no deeper than the hierarchy; it is defined if no node has the number of nodes as its child. *)
Theorem hierarchy_ends nodes u rank fuel roots : decreasing nodes rank -> List.Forall (fun r => rank r < fuel) roots -> load_hierarchy nodes u fuel roots <> OutOfFuel.
Proof.
  intros D F. unfold load_hierarchy. assert (G : forall st, load_roots nodes u fuel roots st <> OutOfFuel).
  { induction F as [|r roots L F IH]; intros st; cbn [load_roots]; [discriminate|]. pose proof (load_ends nodes u rank D fuel r None st L) as X. destruct (load_node nodes u fuel r None st) as [s| | | |]; cbn [obind]; try discriminate; [|congruence].
    destruct (g_joints s); [apply IH|discriminate]. }
  specialize (G (GS [] [] [] (repeat None (List.length nodes)))). destruct (load_roots nodes u fuel roots _); cbn [obind]; congruence.
Qed.
Print Assumptions hierarchy_ends.
Theorem hierarchy_defined nodes u fuel roots : (forall n node c, takes_part nodes n node -> In c (g_children node) -> c <> Z.of_nat (List.length nodes)) ->
  List.Forall (fun r => r <> Z.of_nat (List.length nodes)) roots -> load_hierarchy nodes u fuel roots <> UB.
Proof.
  intros D F. unfold load_hierarchy. assert (G : forall st, load_roots nodes u fuel roots st <> UB).
  { induction F as [|r roots L F IH]; intros st; cbn [load_roots]; [discriminate|]. pose proof (load_defined nodes u D fuel r None st L) as X. destruct (load_node nodes u fuel r None st) as [s| | | |]; cbn [obind]; try discriminate; [|congruence].
    destruct (g_joints s); [apply IH|discriminate]. }
  specialize (G (GS [] [] [] (repeat None (List.length nodes)))). destruct (load_roots nodes u fuel roots _); cbn [obind]; congruence.
Qed.
Print Assumptions hierarchy_defined.

(** A root with an arm, a locator on each and a skinned mesh. *)
Definition plain (t : String.string) (cs : list Z) : gnode := GNode false false false (lit t) cs.
Definition some_nodes : list gnode := [plain "skeleton_joint" [1; 3]; plain "skeleton_joint" [2]; plain "locator" []; plain "locator" []; GNode true false true [] []]%Z.
Definition some_rank (n : Z) : nat := match n with 0%Z => 2 | 1%Z => 1 | _ => 0 end.
Example hierarchy_met : load_hierarchy some_nodes true 3 [4; 0]%Z = Ok (GS [(0%Z, None); (1%Z, Some 0)] [] [(3%Z, Some 0); (2%Z, Some 1)] [Some 0; Some 1; Some 0; Some 1; None]) /\ List.Forall (fun r => some_rank r < 3) [4; 0]%Z /\
  List.Forall (fun r => r <> Z.of_nat (List.length some_nodes)) [4; 0]%Z.
Proof. split; [vm_compute; reflexivity|]. split; repeat constructor; discriminate. Qed.
Example decreasing_met : decreasing some_nodes some_rank /\ forall n node c, takes_part some_nodes n node -> In c (g_children node) -> c <> Z.of_nat (List.length some_nodes).
Proof.
  assert (G : forall n node, takes_part some_nodes n node -> (n = 0 /\ node = plain "skeleton_joint" [1; 3] \/ n = 1 /\ node = plain "skeleton_joint" [2] \/ n = 2 /\ node = plain "locator" [] \/ n = 3 /\ node = plain "locator" [])%Z).
  { intros n node [R [E [S _]]]. destruct (Z.to_nat n) as [|[|[|[|[|k]]]]] eqn:Q; cbn in E; try (injection E as <-); [left; split; [lia|reflexivity]|right; left; split; [lia|reflexivity]|right; right; left; split; [lia|reflexivity]|right; right; right; split; [lia|reflexivity]|discriminate|].
    destruct k; discriminate. }
  split; intros n node c T I; destruct (G n node T) as [[-> ->]|[[-> ->]|[[-> ->]|[-> ->]]]]; cbn in I |- *; intuition (subst; cbn; lia).
Qed.

(** C130. The map does not give the locator that was made from a node: locators are sorted afterwards. *)
Theorem hierarchy_map_locators_refuted : exists nodes roots st n i m p, load_hierarchy nodes true 3 roots = Ok st /\ nth_error (g_map st) (Z.to_nat n) = Some (Some i) /\ (exists node, takes_part nodes n node /\ is_locator node) /\
  nth_error (g_locators st) i = Some (m, p) /\ m <> n.
Proof.
  exists some_nodes, [0%Z]. eexists. exists 2%Z, 0, 3%Z, (Some 0). split; [vm_compute; reflexivity|]. split; [reflexivity|]. split; [exists (plain "locator" []); split; [repeat split; lia|reflexivity]|]. split; [reflexivity|lia].
Qed.
Print Assumptions hierarchy_map_locators_refuted.

(** C130. A node that is its own child is followed without end. *)
Theorem hierarchy_cycle_refuted : exists nodes roots, forall fuel, load_hierarchy nodes true fuel roots = OutOfFuel.
Proof.
  exists [plain "skeleton_joint" [0%Z]], [0%Z]. intros fuel. unfold load_hierarchy. cbn [load_roots]. assert (G : forall fuel q st, load_node [plain "skeleton_joint" [0%Z]] true fuel 0%Z q st = OutOfFuel).
  { clear. induction fuel as [|fuel IH]; intros q st; [reflexivity|]. cbn -[load_node kind_of]. cbn [load_node]. cbn -[load_node kind_of]. change (kind_of true (plain "skeleton_joint" [0%Z])) with KJoint. cbn -[load_node]. rewrite IH. reflexivity. }
  rewrite G. reflexivity.
Qed.
Print Assumptions hierarchy_cycle_refuted.

(** C130. The number of nodes passes the check of indices and is read past the end. *)
Theorem hierarchy_index_refuted : exists nodes roots, load_hierarchy nodes true 9 roots = UB.
Proof. exists [plain "skeleton_joint" [1%Z]], [0%Z]. vm_compute. reflexivity. Qed.
Print Assumptions hierarchy_index_refuted.

(** C130. Only one root is used: joints below another one are not loaded. *)
Theorem hierarchy_other_roots_refuted : exists nodes roots st n, load_hierarchy nodes true 9 roots = Ok st /\ In n roots /\ (exists node, takes_part nodes n node /\ is_joint true node) /\ ~ In n (map fst (g_joints st)).
Proof.
  exists [plain "skeleton_joint" []; plain "skeleton_joint" []], [0; 1]%Z. eexists. exists 1%Z. split; [vm_compute; reflexivity|]. split; [right; left; reflexivity|].
  split; [exists (plain "skeleton_joint" []); split; [repeat split; lia|left; reflexivity]|]. cbn. intros [Q|[]]. discriminate.
Qed.
Print Assumptions hierarchy_other_roots_refuted.
