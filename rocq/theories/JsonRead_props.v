(** C128: what any JSON value is read as. *)

From Coq Require Import List Arith Ascii Bool String Reals Lia Lra.
From Verif Require Import Prelude Loops Str_model Lines_model Marker_model LocIO_model LimIO_model LimIO_spec ModelDef_model ModelDef_spec ModelDef_props Json_model Json_spec Json_props JsonMat_props.
Import ListNotations.
Local Open Scope list_scope.
Local Open Scope outcome_scope.

Lemma collect_inv {A X} (f : A -> outcome (list X)) : forall l r, collect f l = Ok r -> (forall a, In a l -> exists x, f a = Ok x) /\ forall b, In b r <-> exists a x, In a l /\ f a = Ok x /\ In b x.
Proof.
  induction l as [|a l IH]; intros r H; cbn [collect] in H.
  { injection H as <-. split; [intros a []|]. intros b. split; [intros []|intros [a [x [[] _]]]]. }
  destruct (f a) as [x| | | |] eqn:E; try discriminate. cbn [obind] in H. destruct (collect f l) as [y| | | |] eqn:E'; try discriminate. cbn [obind] in H. injection H as <-.
  destruct (IH y eq_refl) as [A1 A2]. split; [intros a' [<-|I]; [exists x; exact E|exact (A1 _ I)]|]. intros b. rewrite in_app_iff, A2. split.
  - intros [I|[a' [x' [I J]]]]; [exists a, x; split; [left; reflexivity|split; assumption]|exists a', x'; split; [right; exact I|exact J]].
  - intros [a' [x' [[<-|I] [J K]]]]; [left; congruence|right; exists a', x'; auto].
Qed.
Lemma keyed_inv {A X} (f : str * A -> outcome (list X)) l r : collect (fun p => let* s := f p in Ok [(fst p, s)]) l = Ok r ->
  (forall n s, In (n, s) r <-> exists a, In (n, a) l /\ f (n, a) = Ok s) /\ forall p, In p l -> exists s, f p = Ok s.
Proof.
  intros H. destruct (collect_inv _ _ _ H) as [A1 A2]. split.
  - intros n s. rewrite A2. split.
    + intros [[n' a] [x [I [E J]]]]. destruct (f (n', a)) as [s'| | | |] eqn:F; try discriminate. cbn in E. injection E as <-. destruct J as [Q|[]]. injection Q as <- <-. exists a. split; assumption.
    + intros [a [I E]]. exists (n, a), [(n, s)]. rewrite E. cbn. auto.
  - intros p I. destruct (A1 p I) as [x E]. destruct (f p) as [s| | | |]; try discriminate. exists s. reflexivity.
Qed.

(** C128. Under a name that has an array there is the set of the parameters that the array names; names that are not known are left out, and there is nothing but names in the array. *)
Theorem sets_json_read names m r : sets_from_json names (JObj m) = Ok r -> forall n l, In (n, JArr l) m ->
  exists s, In (n, s) r /\ (forall k, In k s <-> exists p, In (JStr p) l /\ is_param names p k) /\ forall v, In v l -> exists p, v = JStr p.
Proof.
  intros H n l I. unfold sets_from_json in H. cbn [jitems] in H. apply (keyed_inv (fun p => collect (set_bit names) (jitems (snd p)))) in H. destruct H as [A1 A2].
  destruct (A2 _ I) as [s E]. exists s. split; [apply A1; exists (JArr l); split; assumption|]. cbn [snd] in E. destruct (collect_inv _ _ _ E) as [B1 B2].
  assert (IT : forall v, In v l <-> exists k, In (k, v) (jitems (JArr l))).
  { intros v. rewrite <- (items_arr l) at 1. rewrite in_map_iff. split; [intros [[k v'] [<- J]]; exists k; exact J|intros [k J]; exists (k, v); auto]. }
  split.
  - intros k. rewrite B2. split.
    + intros [[q v] [x [J [F K]]]]. unfold set_bit in F. cbn [snd] in F. destruct v as [| | |p| |]; try discriminate. cbn [get_str obind] in F. exists p. split; [apply IT; exists q; exact J|].
      destruct (index_from p names 0) as [i|] eqn:Q; [|injection F as <-; destruct K]. destruct (i <? max_params); [|discriminate]. injection F as <-. destruct K as [<-|[]]. apply index_from_param in Q. destruct Q as [i' [-> P]]. exact P.
    + intros [p [J P]]. apply IT in J. destruct J as [q J]. destruct (B1 _ J) as [x F]. exists (q, JStr p), x. split; [exact J|]. split; [exact F|]. unfold set_bit in F. cbn [snd get_str obind] in F.
      assert (Q : index_from p names 0 = Some k) by (apply index_from_param; exists k; split; [reflexivity|exact P]). rewrite Q in F. destruct (k <? max_params); [|discriminate]. injection F as <-. left. reflexivity.
  - intros v J. apply IT in J. destruct J as [q J]. destruct (B1 _ J) as [x F]. unfold set_bit in F. cbn [snd] in F. destruct v as [| | |p| |]; try discriminate. exists p. reflexivity.
Qed.
Print Assumptions sets_json_read.
Example sets_json_read_met : sets_from_json [lit "a"; lit "b"] (JObj [(lit "s", JArr [JStr (lit "b"); JStr (lit "z")])]) = Ok [(lit "s", [1])].
Proof. vm_compute. reflexivity. Qed.

(** C128. Under a name that has an object there are the values that the object gives to parameters; other names are left out. *)
Theorem poses_json_read names m r : poses_from_json names (JObj m) = Ok r -> forall n o, In (n, JObj o) m ->
  exists vs, In (n, vs) r /\ forall k x, In (k, x) vs <-> exists p v, In (p, v) o /\ (v = JNum x \/ (v = JBool true /\ x = 1%R) \/ (v = JBool false /\ x = 0%R)) /\ is_param names p k.
Proof.
  intros H n o I. unfold poses_from_json in H. cbn [jitems] in H. apply (keyed_inv (fun p => collect (pose_value names) (jitems (snd p)))) in H. destruct H as [A1 A2].
  destruct (A2 _ I) as [s E]. exists s. split; [apply A1; exists (JObj o); split; assumption|]. cbn [snd jitems] in E. destruct (collect_inv _ _ _ E) as [B1 B2].
  assert (G : forall v x, get_num v = Ok x <-> (v = JNum x \/ (v = JBool true /\ x = 1%R) \/ (v = JBool false /\ x = 0%R))).
  { intros v x. split; [|intros [->|[[-> ->]|[-> ->]]]; reflexivity]. destruct v as [|[]|y| | |]; cbn; try discriminate; intros Q; injection Q as <-; auto. }
  intros k x. rewrite B2. split.
  - intros [[p v] [y [J [F K]]]]. unfold pose_value in F. cbn [fst snd] in F. destruct (get_num v) as [z| | | |] eqn:Z; try discriminate. cbn [obind] in F. injection F as <-.
    destruct (index_from p names 0) as [i|] eqn:Q; [|destruct K]. destruct K as [K|[]]. injection K as <- <-. exists p, v. split; [exact J|]. split; [apply G; exact Z|]. apply index_from_param in Q. destruct Q as [i' [-> P]]. exact P.
  - intros [p [v [J [Z P]]]]. apply G in Z. exists (p, v), [(k, x)]. split; [exact J|]. split; [|left; reflexivity]. unfold pose_value. cbn [fst snd]. rewrite Z. cbn [obind].
    assert (Q : index_from p names 0 = Some k) by (apply index_from_param; exists k; split; [reflexivity|exact P]). rewrite Q. reflexivity.
Qed.
Print Assumptions poses_json_read.
Example poses_json_read_met : poses_from_json [lit "a"; lit "b"] (JObj [(lit "s", JObj [(lit "b", JNum 2); (lit "z", JBool true)])]) = Ok [(lit "s", [(1, 2%R)])].
Proof. lazy -[IZR]. reflexivity. Qed.

(** C128. A limit that is read is one of joints and parameters that exist, if the value names such joints and parameters; then [invalid] does not occur. *)
Theorem limits_json_read joints params invalid l r : limits_from_json joints params invalid (JArr l) = Ok r -> List.length joints <= invalid -> List.length params <= invalid -> 7 <= invalid ->
  List.Forall (fun x => in_range joints params x <->
    match p_limit x with
    | LMinMax k _ _ => k <> invalid
    | LMinMaxJoint j q _ _ | LMinMaxPassive j q _ _ => j <> invalid /\ q <> invalid
    | LLinear i t _ _ _ _ => i <> invalid /\ t <> invalid
    | LHalfPlane a b _ _ => a <> invalid /\ b <> invalid
    | LEllipsoid p _ q _ => p <> invalid /\ q <> invalid
    end) r.
Proof.
  intros H Lj Lp L7. unfold limits_from_json in H. destruct (collect_inv _ _ _ H) as [_ B]. rewrite Forall_forall. intros x I. apply B in I. destruct I as [[k j] [y [_ [E J]]]]. cbn [snd] in E.
  destruct (limit_from_json joints params invalid j) as [z| | | |] eqn:F; try discriminate. cbn in E. injection E as <-. destruct J as [<-|[]].
  assert (V : forall names j k i, index_value invalid names j k = Ok i -> i < List.length names \/ i = invalid).
  { intros names j0 k0 i Q. unfold index_value in Q. destruct (str_value j0 k0 []) as [n| | | |]; try discriminate. cbn in Q. destruct (index_from n names 0) as [i'|] eqn:X; injection Q as <-; [left|right; reflexivity].
    apply index_from_param in X. destruct X as [i2 [-> [P _]]]. cbn. apply nth_error_Some. congruence. }
  unfold limit_from_json, ellipsoid_from_json in F. destruct (str_value j (lit "type") []) as [t| | | |]; try discriminate. cbn [obind] in F.
  destruct (num_value j (lit "weight") 0) as [w| | | |]; try discriminate. cbn [obind] in F.
  repeat match type of F with
  | context [if s_eqb ?a ?b then _ else _] => destruct (s_eqb a b)
  end.
  all: try discriminate F.
  all: repeat match type of F with
  | context [index_value ?inv ?n ?j0 ?k] => let E := fresh "IV" in destruct (index_value inv n j0 k) as [?i| | | |] eqn:E; try discriminate F; apply V in E; cbn [obind] in F
  end.
  all: repeat match type of F with
  | context [obind ?o _] => match o with obind _ _ => fail 1 | _ => destruct o; try discriminate F; cbn [obind] in F end
  end.
  all: injection F as <-; unfold in_range; cbn [p_limit]; change (List.length param_names) with 7 in *; lia.
Qed.
Print Assumptions limits_json_read.
Example limits_json_read_met : exists r, limits_from_json one_joint three 9 (JArr [obj [(lit "type", JStr (lit "minmax")); (lit "parameter", JStr (lit "a")); (lit "limits", vec2 0 1)]]) = Ok r /\ List.Forall (in_range one_joint three) r.
Proof. eexists. split; [lazy -[IZR]; reflexivity|]. repeat constructor. Qed.
