From Coq Require Import Bool Reals List Arith Lia Lra ZifyBool String.
From Verif Require Import Prelude Loops Rbool R3 LinAlg Transform_model Transform_proofs Skeleton_spec FK_model FK_spec FK_proofs
  ParamTransform_model ParamTransform_spec ParamTransform_proofs Locator_model Locator_spec.
Import ListNotations.
Local Open Scope R_scope.

(** ** What the loop builds *)

Fixpoint aent (id col : nat) (l : locator) (js : list nat) : list entry :=
  match js with
  | [] => []
  | j :: r => if locked l j then aent id col l r else Entry (7 * id + j) col 1 :: aent id (S col) l r
  end.
Definition free_in (l : locator) (js : list nat) : list nat := filter (fun a => negb (locked l a)) js.
Definition anames (jn : string) (l : locator) (js : list nat) : list string :=
  map (fun j => String.append jn (axis_name j)) (free_in l js).
Definition alim (id : nat) (l : locator) (j : nat) : list plimit :=
  let r := vget (lo_origin l) j - vget (lo_offset l) j in
  if Rltb 0 (vget (lo_lweight l) j) then [PLimit (LMinMaxJoint id j r r) (vget (lo_lweight l) j)] else [].
Definition alims (id : nat) (l : locator) (js : list nat) : list plimit := flat_map (alim id l) (free_in l js).

Lemma axis_fold id jn l : forall js b,
  (List.length (lb_names b) + List.length (free_in l js) <= kMaxModelParams)%nat ->
  exists S, ofold (axis_step id jn l) js b =
    Ok (LB (lb_joints b) (lb_names b ++ anames jn l js) (lb_triplets b ++ aent id (List.length (lb_names b)) l js) S
          (lb_limits b ++ alims id l js) (lb_offsets b) (lb_active b) (lb_inv b) (lb_locs b)) /\
    forall i, S i = true <-> lb_set b i = true \/ (List.length (lb_names b) <= i < List.length (lb_names b) + List.length (free_in l js))%nat.
Proof.
  induction js as [|j js IH]; intros b H.
  - exists (lb_set b). cbn. rewrite !app_nil_r. split; [destruct b; reflexivity|]. intros i. split; [auto|]. intros [E|E]; [exact E|lia].
  - cbn [ofold]. unfold axis_step at 1. unfold alims, anames, free_in in *. cbn [filter aent] in *. destruct (locked l j) eqn:E.
    + cbn [obind negb] in *. destruct (IH b H) as [S HS]. exists S. exact HS.
    + cbn [negb List.length map flat_map] in *. destruct (Nat.ltb_spec (List.length (lb_names b)) kMaxModelParams) as [L|L]; [|lia].
      cbn [obind]. cbv zeta.
      match goal with |- context[ofold _ js ?b'] => destruct (IH b') as (S & E1 & E2) end.
      { cbn [lb_names]. rewrite app_length. cbn [List.length]. lia. }
      exists S. rewrite E1. cbn [lb_names lb_triplets lb_limits lb_joints lb_offsets lb_active lb_inv lb_locs lb_set].
      rewrite <- !app_assoc, app_length. cbn [List.length app]. split.
      { repeat f_equal; lia. }
      intros i. rewrite E2. cbn [lb_set lb_names]. rewrite app_length. cbn [List.length].
      rewrite orb_true_iff, Nat.eqb_eq. split; [intros [[A|A]|A]|intros [A|A]]; [right; lia|left; exact A|right; lia|left; right; exact A|].
      destruct (Nat.eq_dec i (List.length (lb_names b))) as [Ei|Ei]; [left; left; exact Ei|right; lia].
Qed.

Lemma axis_fold_throw id jn l : forall js b,
  (List.length (lb_names b) <= kMaxModelParams < List.length (lb_names b) + List.length (free_in l js))%nat ->
  ofold (axis_step id jn l) js b = Throw.
Proof.
  induction js as [|j js IH]; intros b H; [cbn in H; lia|].
  cbn [ofold]. unfold axis_step at 1. unfold free_in in *. cbn [filter] in *. destruct (locked l j); cbn [negb obind] in *; [apply IH, H|].
  cbn [List.length] in H.
  destruct (Nat.ltb_spec (List.length (lb_names b)) kMaxModelParams) as [L|L]; [|reflexivity].
  cbn [obind]. apply IH. cbn [lb_names]. rewrite app_length. cbn [List.length]. lia.
Qed.

Definition moved (l : locator) : bool := negb (all_locked l).
Definition new_joint (l : locator) : joint := Joint (lo_parent l) (lo_offset l) qid.
Fixpoint ents (id col : nat) (ls : list locator) : list entry :=
  match ls with
  | [] => []
  | l :: r => if all_locked l then ents id col r else aent id col l [0; 1; 2]%nat ++ ents (S id) (col + free_axes l) r
  end.
Fixpoint lims (id : nat) (ls : list locator) : list plimit :=
  match ls with
  | [] => []
  | l :: r => if all_locked l then lims id r else alims id l [0; 1; 2]%nat ++ lims (S id) r
  end.
Definition reattached (id : nat) (l : locator) : locator :=
  Locator (lo_name l) (Some id) vzero (lo_locked l) (lo_weight l) (lo_origin l) (lo_lweight l).
Fixpoint nlocs (id : nat) (ls : list locator) : list locator :=
  match ls with
  | [] => []
  | l :: r => if all_locked l then l :: nlocs id r else reattached id l :: nlocs (S id) r
  end.
Definition all_names (prefix : string) (ls : list locator) : list string :=
  flat_map (fun l => anames (String.append prefix (lo_name l)) l [0; 1; 2]%nat) ls.

Lemma free_axes_in l : free_axes l = List.length (free_in l [0; 1; 2]%nat).
Proof. reflexivity. Qed.
Lemma all_locked_free l : all_locked l = true -> free_in l [0; 1; 2]%nat = [].
Proof.
  unfold all_locked, free_in. cbn [filter]. rewrite !andb_true_iff. intros [[-> ->] ->]. reflexivity.
Qed.
Lemma not_locked_free l : all_locked l = false -> (0 < free_axes l)%nat.
Proof.
  rewrite free_axes_in. unfold all_locked, free_in. cbn [filter].
  destruct (locked l 0), (locked l 1), (locked l 2); cbn; intros; try lia; discriminate.
Qed.

Lemma loop_ok prefix : forall ls b,
  (List.length (lb_names b) + free_total ls <= kMaxModelParams)%nat ->
  let id := List.length (lb_joints b) in let m := List.length (filter moved ls) in
  exists S, ofold (locator_step prefix) ls b =
    Ok (LB (lb_joints b ++ map new_joint (filter moved ls)) (lb_names b ++ all_names prefix ls)
          (lb_triplets b ++ ents id (List.length (lb_names b)) ls) S (lb_limits b ++ lims id ls)
          (lb_offsets b ++ repeat 0 (7 * m)) (lb_active b ++ repeat true (7 * m)) (lb_inv b ++ repeat (Aff mid vzero) m)
          (lb_locs b ++ nlocs id ls)) /\
    forall i, S i = true <-> lb_set b i = true \/ (List.length (lb_names b) <= i < List.length (lb_names b) + free_total ls)%nat.
Proof.
  cbv zeta. induction ls as [|l ls IH]; intros b H.
  - exists (lb_set b). cbn [filter map List.length all_names flat_map ents lims nlocs ofold]. rewrite Nat.mul_0_r. cbn [repeat]. rewrite !app_nil_r.
    split; [destruct b; reflexivity|]. intros i. cbn. split; [auto|]. intros [E|E]; [exact E|lia].
  - cbn [ofold]. unfold locator_step at 1. cbn [filter ents lims nlocs]. unfold moved at 1 4 7 10. unfold all_names in *. cbn [flat_map].
    unfold free_total in *. cbn [map list_sum fold_right] in H.
    change (fold_right Nat.add 0 (map free_axes ls))%nat with (list_sum (map free_axes ls)) in H.
    cbn [map]. change (list_sum (free_axes l :: map free_axes ls)) with (free_axes l + list_sum (map free_axes ls))%nat.
    destruct (all_locked l) eqn:A.
    + cbn [obind negb]. match goal with |- context[ofold _ ls ?b'] => destruct (IH b') as (S & E1 & E2) end.
      { cbn [lb_names]. lia. }
      exists S. rewrite E1. cbn [lb_names lb_triplets lb_limits lb_joints lb_offsets lb_active lb_inv lb_locs lb_set] in *.
      rewrite <- (app_assoc (lb_locs b)). unfold anames. rewrite (all_locked_free l A). cbn [map app]. split; [reflexivity|].
      intros i. rewrite E2, free_axes_in, (all_locked_free l A). cbn [List.length]. reflexivity.
    + cbn [negb]. cbv zeta. rewrite free_axes_in in H.
      match goal with |- context[ofold (axis_step ?i ?n l) ?js ?b'] => destruct (axis_fold i n l js b') as (S1 & E1 & E2) end.
      { cbn [lb_names]. lia. }
      rewrite E1. cbn [obind]. cbn [lb_names lb_triplets lb_limits lb_joints lb_offsets lb_active lb_inv lb_locs lb_set] in *.
      match goal with |- context[ofold (locator_step prefix) ls ?b'] => destruct (IH b') as (S & F1 & F2) end.
      { cbn [lb_names]. unfold anames. rewrite app_length, map_length. lia. }
      exists S. rewrite F1. cbn [lb_names lb_triplets lb_limits lb_joints lb_offsets lb_active lb_inv lb_locs lb_set] in *.
      unfold anames in *. rewrite !app_length, !map_length in *. cbn [map List.length] in *. rewrite <- !app_assoc. cbn [app].
      rewrite !Nat.add_1_r. split.
      { repeat f_equal.
        - rewrite <- (repeat_app 0 7). f_equal. lia.
        - rewrite <- (repeat_app true 7). f_equal. lia. }
      intros i. rewrite F2, E2, free_axes_in. lia.
Qed.

Lemma loop_throw prefix : forall ls b,
  (List.length (lb_names b) <= kMaxModelParams < List.length (lb_names b) + free_total ls)%nat ->
  ofold (locator_step prefix) ls b = Throw.
Proof.
  induction ls as [|l ls IH]; intros b H; [cbn in H; lia|].
  cbn [ofold]. unfold locator_step at 1.
  unfold free_total in *. cbn [map] in H. change (list_sum (free_axes l :: map free_axes ls)) with (free_axes l + list_sum (map free_axes ls))%nat in H.
  destruct (all_locked l) eqn:A.
  - cbn [obind]. apply IH. cbn [lb_names]. rewrite free_axes_in, (all_locked_free l A) in H. cbn [List.length] in H. lia.
  - cbv zeta. rewrite free_axes_in in H.
    destruct (Nat.le_gt_cases (List.length (lb_names b) + List.length (free_in l [0; 1; 2]%nat)) kMaxModelParams) as [L|L].
    + match goal with |- context[ofold (axis_step ?i ?n l) ?js ?b'] => destruct (axis_fold i n l js b') as (S1 & E1 & E2) end; [exact L|].
      rewrite E1. cbn [obind]. apply IH. cbn [lb_names]. unfold anames. rewrite app_length, map_length. lia.
    + rewrite axis_fold_throw; [reflexivity|]. cbn [lb_names]. lia.
Qed.

(** ** The new rows of the matrix *)

Lemma row_dot_app a b p r : row_dot (a ++ b) p r = row_dot a p r + row_dot b p r.
Proof. unfold row_dot. rewrite map_app, rsum_app. reflexivity. Qed.
Lemma row_dot_out es p r : (forall e, In e es -> erow e <> r) -> row_dot es p r = 0.
Proof.
  intros H. unfold row_dot. apply rsum_map_zero. intros e He. destruct (Nat.eqb_spec (erow e) r) as [E|E]; [|reflexivity].
  destruct (H e He E).
Qed.
Lemma aent_rows id l : forall js col e, In e (aent id col l js) -> exists j, In j js /\ erow e = (7 * id + j)%nat /\ locked l j = false.
Proof.
  induction js as [|j js IH]; cbn [aent]; intros col e He; [contradiction|]. destruct (locked l j) eqn:E.
  - destruct (IH _ _ He) as (j' & A & B). exists j'. split; [right; exact A|exact B].
  - destruct He as [<-|He].
    + exists j. cbn [erow]. split; [left; reflexivity|]. auto.
    + destruct (IH _ _ He) as (j' & A & B). exists j'. split; [right; exact A|exact B].
Qed.
Lemma aent_cols id l : forall js col e, In e (aent id col l js) -> (col <= ecol e < col + List.length (free_in l js))%nat.
Proof.
  unfold free_in. induction js as [|j js IH]; cbn [aent filter]; intros col e He; [contradiction|].
  destruct (locked l j); cbn [negb List.length] in *; [apply IH, He|].
  destruct He as [<-|He]; [cbn [ecol]; lia|]. apply IH in He. lia.
Qed.
Lemma ents_rows : forall ls id col e, In e (ents id col ls) -> (7 * id <= erow e < 7 * (id + List.length (filter moved ls)))%nat.
Proof.
  induction ls as [|l ls IH]; cbn [ents filter]; intros id col e He; [contradiction|].
  unfold moved at 1. destruct (all_locked l); cbn [negb List.length] in *; [apply (IH _ _ _ He)|].
  apply in_app_iff in He as [He|He].
  - destruct (aent_rows _ _ _ _ _ He) as (j & Hj & -> & _). cbn in Hj. lia.
  - apply IH in He. lia.
Qed.
Lemma ents_cols : forall ls id col e, In e (ents id col ls) -> (col <= ecol e < col + free_total ls)%nat.
Proof.
  unfold free_total. induction ls as [|l ls IH]; cbn [ents map]; intros id col e He; [contradiction|].
  change (list_sum (free_axes l :: map free_axes ls)) with (free_axes l + list_sum (map free_axes ls))%nat.
  destruct (all_locked l); cbn [negb List.length] in *; [apply IH in He; lia|].
  apply in_app_iff in He as [He|He].
  - apply aent_cols in He. rewrite free_axes_in. lia.
  - apply IH in He. lia.
Qed.

Lemma ents_value q : forall ls i l id col k, nth_error ls i = Some l -> all_locked l = false -> (k < 7)%nat ->
  row_dot (ents id col ls) q (7 * (id + List.length (filter moved (firstn i ls))) + k) =
  if ((k <? 3)%nat && negb (locked l k))%bool then nth (col + free_total (firstn i ls) + free_below l k) q 0 else 0.
Proof.
  induction ls as [|l0 ls IH]; intros i l id col k Hi A Hk; [destruct i; discriminate|].
  destruct i as [|i]; cbn [nth_error] in Hi.
  - apply (f_equal (fun o => match o with Some x => x | None => l0 end)) in Hi. subst l0.
    cbn [ents firstn filter List.length]. rewrite A, row_dot_app, (row_dot_out (ents (S id) _ ls)).
    2:{ intros e He. apply ents_rows in He. lia. }
    rewrite Rplus_0_r, !Nat.add_0_r. unfold free_total. cbn [map list_sum fold_right]. rewrite ?Nat.add_0_r.
    destruct (Nat.ltb_spec k 3) as [L|L].
    2:{ cbn [andb]. apply row_dot_out. intros e He. destruct (aent_rows _ _ _ _ _ He) as (j & Hj & -> & _). cbn in Hj. lia. }
    cbn [andb]. unfold free_below.
    destruct k as [|[|[|k]]]; [| | |lia]; cbn [seq filter aent];
      destruct (locked l 0), (locked l 1), (locked l 2); cbn [negb List.length];
      unfold row_dot; cbn [map erow ecol eval rsum];
      repeat match goal with |- context[(?x =? ?y)%nat] => destruct (Nat.eqb_spec x y); try lia end;
      rewrite ?Nat.add_0_r; try (rewrite ?Nat.add_1_r; cbn [Nat.add]; ring);
      try (replace (S (S col)) with (col + 2)%nat by lia; ring).
  - cbn [ents firstn filter]. unfold moved at 1. unfold free_total. cbn [map].
    change (list_sum (free_axes l0 :: map free_axes (firstn i ls))) with (free_axes l0 + list_sum (map free_axes (firstn i ls)))%nat.
    destruct (all_locked l0) eqn:A0; cbn [negb].
    + rewrite free_axes_in, (all_locked_free l0 A0). cbn [List.length Nat.add]. apply IH; assumption.
    + cbn [List.length]. rewrite row_dot_app, (row_dot_out (aent _ _ _ _)).
      2:{ intros e He. destruct (aent_rows _ _ _ _ _ He) as (j & Hj & -> & _). cbn in Hj. lia. }
      rewrite Rplus_0_l. replace (id + S (List.length (filter moved (firstn i ls))))%nat with (S id + List.length (filter moved (firstn i ls)))%nat by lia.
      rewrite (IH i l (S id) (col + free_axes l0)%nat k Hi A Hk). unfold free_total. rewrite !Nat.add_assoc. reflexivity.
Qed.

Lemma nlocs_nth : forall ls i l id, nth_error ls i = Some l ->
  nth_error (nlocs id ls) i = Some (if all_locked l then l else reattached (id + List.length (filter moved (firstn i ls))) l).
Proof.
  induction ls as [|l0 ls IH]; intros i l id Hi; [destruct i; discriminate|].
  destruct i as [|i]; cbn [nth_error] in Hi; cbn [nlocs firstn filter].
  - apply (f_equal (fun o => match o with Some x => x | None => l0 end)) in Hi. subst l0.
    destruct (all_locked l); cbn [nth_error List.length]; rewrite ?Nat.add_0_r; reflexivity.
  - unfold moved at 1. destruct (all_locked l0); cbn [nth_error negb List.length].
    + apply IH, Hi.
    + rewrite (IH i l (S id) Hi). rewrite <- plus_n_Sm, Nat.add_succ_l. reflexivity.
Qed.
Lemma nlocs_length : forall ls id, List.length (nlocs id ls) = List.length ls.
Proof. induction ls as [|l ls IH]; intros id; cbn [nlocs]; [reflexivity|]. destruct (all_locked l); cbn [List.length]; rewrite IH; reflexivity. Qed.

Lemma filter_nth {A} (P : A -> bool) : forall ls i x, nth_error ls i = Some x -> P x = true ->
  nth_error (filter P ls) (List.length (filter P (firstn i ls))) = Some x.
Proof.
  induction ls as [|y ls IH]; intros i x Hi Hx; [destruct i; discriminate|].
  destruct i as [|i]; cbn [nth_error] in Hi; cbn [firstn filter].
  - apply (f_equal (fun o => match o with Some z => z | None => y end)) in Hi. subst y. rewrite Hx. reflexivity.
  - destruct (P y); cbn [List.length nth_error]; apply IH; assumption.
Qed.

Lemma create_ok c prefix : ch_wf c -> (pt_cols (ch_pt c) + free_total (ch_locators c) <= kMaxModelParams)%nat ->
  let n := List.length (ch_skel c) in let m := List.length (filter moved (ch_locators c)) in
  exists S, create_locator_character c prefix =
    Ok (Ch (ch_skel c ++ map new_joint (filter moved (ch_locators c)))
          (PT (pt_name (ch_pt c) ++ all_names prefix (ch_locators c)) (7 * (n + m)) (pt_cols (ch_pt c) + free_total (ch_locators c))
             (pt_entries (ch_pt c) ++ ents n (pt_cols (ch_pt c)) (ch_locators c)) (pt_offsets (ch_pt c) ++ repeat 0 (7 * m))
             (pt_active (ch_pt c) ++ repeat true (7 * m)) (put_set (pt_sets (ch_pt c)) "locators" S) (pt_pose (ch_pt c)) (pt_blend (ch_pt c)) (pt_face (ch_pt c)))
          (nlocs n (ch_locators c)) (ch_limits c ++ lims n (ch_locators c)) (ch_inv c ++ repeat (Aff mid vzero) m)) /\
    forall i, S i = true <-> (pt_cols (ch_pt c) <= i < pt_cols (ch_pt c) + free_total (ch_locators c))%nat.
Proof.
  intros W H. cbv zeta. unfold create_locator_character. cbv zeta.
  destruct W as [_ _ [WN _ _ _ _ _ _] _ _].
  match goal with |- context[ofold _ ?ls ?b'] => destruct (loop_ok prefix ls b') as (S & E1 & E2) end.
  { cbn [lb_names]. rewrite WN. exact H. }
  exists S. rewrite E1. cbn [obind lb_names lb_triplets lb_limits lb_joints lb_offsets lb_active lb_inv lb_locs lb_set app] in *.
  assert (LN : List.length (all_names prefix (ch_locators c)) = free_total (ch_locators c)).
  { unfold all_names, free_total. generalize (ch_locators c). intros ls. induction ls as [|l ls IH]; [reflexivity|].
    cbn [flat_map map]. rewrite app_length, IH. unfold anames. rewrite map_length. reflexivity. }
  rewrite !app_length, map_length, LN, WN. split; [reflexivity|].
  intros i. rewrite E2, WN. split; [intros [E|E]; [discriminate|exact E]|auto].
Qed.
