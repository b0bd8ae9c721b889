(** Properties C44 (skinning) and C45 (remapping of weights). *)

From Coq Require Import Reals List Arith Lia Lra Permutation.
From Verif Require Import Prelude Loops Rbool R3 LinAlg Transform_model Skin_model Skin_spec.
Import ListNotations.
Local Open Scope R_scope.

(** ** Vertices in any order *)

Lemma for_vertices_ok {A B} (f : list influence -> A -> outcome B) (g : nat -> B) skin points : length skin = length points ->
  (forall i row p, nth_error skin i = Some row -> nth_error points i = Some p -> f row p = Ok (g i)) ->
  forall order result, (forall i, In i order -> (i < length skin)%nat) -> length result = length skin ->
  exists result', for_vertices order skin points f result = Ok result' /\ length result' = length result /\
    forall i, nth_error result' i = if in_dec Nat.eq_dec i order then Some (g i) else nth_error result i.
Proof.
  intros L F. induction order as [|i order IH]; intros result H Lr.
  - exists result. split; [reflexivity|]. split; [reflexivity|]. intros i. destruct (in_dec Nat.eq_dec i []) as [[]|]; reflexivity.
  - unfold for_vertices. cbn [ofold]. assert (Hi : (i < length skin)%nat) by (apply H; left; reflexivity).
    destruct (nth_error_lt skin i Hi) as [row Er]. destruct (nth_error_lt points i) as [p Ep]; [lia|].
    rewrite (rd_some _ _ _ Er), (rd_some _ _ _ Ep). cbn [obind]. rewrite (F i row p Er Ep). cbn [obind].
    destruct (wr_ok result i (g i)) as (r1 & E1 & L1 & N1); [lia|]. rewrite E1. cbn [obind].
    destruct (IH r1) as (r2 & E2 & L2 & N2).
    { intros j Hj. apply H. right. exact Hj. } { lia. }
    exists r2. split; [exact E2|]. split; [lia|]. intros j. rewrite N2.
    destruct (in_dec Nat.eq_dec j order) as [D|D], (in_dec Nat.eq_dec j (i :: order)) as [D'|D']; try reflexivity.
    + destruct D'. right. exact D.
    + destruct D' as [->|D']; [|contradiction]. apply N1.
    + apply N1. intros ->. apply D'. left. reflexivity.
Qed.

Lemma for_vertices_all {A B} (f : list influence -> A -> outcome B) skin points order result :
  Permutation order (seq 0 (length skin)) -> length skin = length points -> length result = length skin ->
  (forall i row p, nth_error skin i = Some row -> nth_error points i = Some p -> exists v, f row p = Ok v) ->
  exists result', for_vertices order skin points f result = Ok result' /\ length result' = length skin /\
    forall i row p, nth_error skin i = Some row -> nth_error points i = Some p -> exists v, nth_error result' i = Some v /\ f row p = Ok v.
Proof.
  intros P L Lr F. destruct skin as [|row0 skin'].
  - apply Permutation_sym, Permutation_nil in P. subst order. exists result. split; [reflexivity|]. split; [exact Lr|].
    intros [|i] row p H; discriminate.
  - set (skin := row0 :: skin') in *.
    destruct (nth_error_lt points 0) as [p0 Ep0]; [rewrite <- L; cbn; lia|]. destruct (F 0%nat row0 p0 eq_refl Ep0) as [b0 _].
    set (g := fun i => match nth_error skin i, nth_error points i with Some row, Some p => match f row p with Ok v => v | _ => b0 end | _, _ => b0 end).
    assert (G : forall i row p, nth_error skin i = Some row -> nth_error points i = Some p -> f row p = Ok (g i)).
    { intros i row p E1 E2. unfold g. rewrite E1, E2. destruct (F i row p E1 E2) as [v Ev]. rewrite Ev. reflexivity. }
    destruct (for_vertices_ok f g skin points L G order result) as (r & E & Lr' & N).
    { intros i Hi. apply (Permutation_in _ P) in Hi. apply in_seq in Hi. lia. } { exact Lr. }
    exists r. split; [exact E|]. split; [lia|]. intros i row p E1 E2. exists (g i). split; [|apply G; assumption].
    rewrite N. destruct (in_dec Nat.eq_dec i order) as [|D]; [reflexivity|]. destruct D. apply (Permutation_in _ (Permutation_sym P)), in_seq.
    apply nth_error_len in E1. lia.
Qed.

(** ** One row *)

Lemma skin_transforms_nth worlds inv j w b : nth_error worlds j = Some w -> nth_error inv j = Some b ->
  nth_error (skin_transforms worlds inv) j = Some (aff_mul w b).
Proof.
  unfold skin_transforms. revert inv j. induction worlds as [|w0 worlds IH]; intros [|b0 inv] [|j] H1 H2; try discriminate; cbn in *.
  - congruence.
  - apply IH; assumption.
Qed.
Lemma aff_mul_point a b p : aff_point (aff_mul a b) p = aff_point a (aff_point b p).
Proof. destruct a as [m t], b as [m' t']. unfold aff_point, aff_mul. cbn [alin atrans]. vec_ring. Qed.
Lemma mvec_add m a b : mvec m (vadd a b) = vadd (mvec m a) (mvec m b).
Proof. vec_ring. Qed.

Lemma zeros_split row : zeros_last row -> exists z, row = before_zero row ++ z /\ Forall (fun x => snd x = 0) z.
Proof.
  induction row as [|x row IH]; intros H; [exists []; split; [reflexivity|constructor]|]. cbn [before_zero].
  destruct (Req_EM_T (snd x) 0) as [E|E].
  - exists (x :: row). split; [reflexivity|]. constructor; [exact E|]. apply Forall_forall. intros y Hy.
    apply In_nth_error in Hy as [k Hk]. apply (H 0%nat (S k) x y); [lia|reflexivity|exact Hk|exact E].
  - destruct IH as (z & E1 & E2).
    { intros i k a b Hik Ha Hb. apply (H (S i) (S k) a b); [lia|exact Ha|exact Hb]. }
    exists z. split; [cbn; f_equal; exact E1|exact E2].
Qed.
Lemma vsum_app a b : vsum (a ++ b) = vadd (vsum a) (vsum b).
Proof. unfold vsum. induction a as [|x a IH]; cbn [app fold_right]; [rewrite vadd_0_l; reflexivity|]. rewrite IH, vadd_assoc. reflexivity. Qed.
Lemma vsum_zeros n : vsum (repeat vzero n) = vzero.
Proof. unfold vsum. induction n as [|n IH]; cbn [repeat fold_right]; [reflexivity|]. rewrite IH. apply vadd_0_l. Qed.

Lemma sum_all (P : influence -> vec3 -> Prop) row v : (forall x, snd x = 0 -> P x vzero) -> zeros_last row ->
  (exists vs, Forall2 P (before_zero row) vs /\ v = vsum vs) -> exists vs, Forall2 P row vs /\ v = vsum vs.
Proof.
  intros Z H (vs & F & ->). destruct (zeros_split row H) as (z & E & Fz).
  exists (vs ++ repeat vzero (length z)). split.
  - rewrite E. apply Forall2_app; [exact F|]. clear E. induction z as [|x z IH]; cbn [length repeat]; [constructor|].
    inversion Fz; subst. constructor; [apply Z; assumption|apply IH; assumption].
  - rewrite vsum_app, vsum_zeros, vadd_0_r. reflexivity.
Qed.

Lemma row_ok_cons n x row : row_ok n (x :: row) -> row_ok n row.
Proof. intros H j w Hi. apply H. right. exact Hi. Qed.

Lemma ssd_normal_row_ok worlds inv pos nml : (length inv <= length worlds)%nat -> forall row out, row_ok (length inv) row ->
  exists v d, ssd_normal_row (skin_transforms worlds inv) row pos nml out = Ok (vadd (fst out) v, vadd (snd out) d) /\
    skinned worlds inv (before_zero row) pos v /\ skinned_dir worlds inv (before_zero row) nml d.
Proof.
  intros L. induction row as [|[j w] row IH]; intros out H; cbn [ssd_normal_row before_zero snd].
  - exists vzero, vzero. rewrite !vadd_0_r. split; [destruct out; reflexivity|]. split; exists []; split; try constructor; reflexivity.
  - unfold Reqb. destruct (Req_EM_T w 0) as [E|E].
    + exists vzero, vzero. rewrite !vadd_0_r. split; [destruct out; reflexivity|]. split; exists []; split; try constructor; reflexivity.
    + assert (Hj : (j < length inv)%nat) by (apply (H j w); [left; reflexivity|exact E]).
      destruct (nth_error_lt inv j Hj) as [b Eb]. destruct (nth_error_lt worlds j) as [wd Ew]; [lia|].
      rewrite (rd_some _ _ _ (skin_transforms_nth _ _ _ _ _ Ew Eb)). cbn [obind].
      match goal with |- context[ssd_normal_row _ row pos nml ?o] => destruct (IH o) as (v & d & E1 & (vs & F1 & ->) & (ds & F2 & ->)) end.
      { apply (row_ok_cons _ _ _ H). }
      rewrite E1. cbn [fst snd]. rewrite <- !vadd_assoc. eexists. eexists. split; [reflexivity|]. split.
      * exists (vscale w (aff_point wd (aff_point b pos)) :: vs). split.
        -- constructor; [|exact F1]. right. exists wd, b. auto.
        -- cbn [vsum fold_right]. f_equal. f_equal. rewrite <- aff_mul_point. unfold aff_point. apply vadd_comm.
      * exists (vscale w (mvec (alin wd) (mvec (alin b) nml)) :: ds). split.
        -- constructor; [|exact F2]. right. exists wd, b. auto.
        -- cbn [vsum fold_right]. f_equal. f_equal. unfold aff_mul. cbn [alin]. apply mmul_vec.
Qed.

Lemma ssd_row_normal ts pos : forall row out, ssd_row ts row pos (fst out) = obind (ssd_normal_row ts row pos vzero out) (fun x => Ok (fst x)).
Proof.
  induction row as [|[j w] row IH]; intros out; cbn [ssd_row ssd_normal_row]; [reflexivity|].
  destruct (Reqb w 0); [reflexivity|]. destruct (rd ts j) as [t| | | |]; cbn [obind]; try reflexivity.
  rewrite <- IH. reflexivity.
Qed.
Lemma ssd_row_ok worlds inv pos row : (length inv <= length worlds)%nat -> row_ok (length inv) row ->
  exists v, ssd_row (skin_transforms worlds inv) row pos vzero = Ok v /\ skinned worlds inv (before_zero row) pos v.
Proof.
  intros L H. destruct (ssd_normal_row_ok worlds inv pos vzero L row (vzero, vzero) H) as (v & d & E & S & _).
  exists v. split; [|exact S]. rewrite (ssd_row_normal _ _ row (vzero, vzero)), E. cbn [obind fst]. rewrite vadd_0_l. reflexivity.
Qed.

(** Whatever the order in which the vertices are treated, each moves to the weighted sum over its
    influences before the first of weight zero. *)
Theorem ssd_before_zero order inv skin points worlds : Permutation order (seq 0 (length skin)) ->
  length worlds = length inv -> length skin = length points -> (forall row, In row skin -> row_ok (length inv) row) ->
  exists result, apply_ssd order inv skin points worlds = Ok result /\ length result = length points /\
    forall i row p, nth_error skin i = Some row -> nth_error points i = Some p ->
      exists v, nth_error result i = Some v /\ skinned worlds inv (before_zero row) p v.
Proof.
  intros P L1 L2 H. unfold apply_ssd. rewrite L1, L2, !Nat.eqb_refl. cbn [negb].
  destruct (for_vertices_all (fun row p => ssd_row (skin_transforms worlds inv) row p vzero) skin points order (repeat vzero (length points)) P L2)
    as (r & E & Lr & N).
  - rewrite repeat_length. lia.
  - intros i row p E1 _. destruct (ssd_row_ok worlds inv p row) as (v & Ev & _); [lia|apply H; eapply nth_error_In; eauto|eauto].
  - exists r. split; [exact E|]. split; [lia|]. intros i row p E1 E2. destruct (N i row p E1 E2) as (v & Nv & Ev).
    exists v. split; [exact Nv|]. destruct (ssd_row_ok worlds inv p row) as (v' & Ev' & S); [lia|apply H; eapply nth_error_In; eauto|].
    assert (v' = v) as <- by congruence. exact S.
Qed.
Print Assumptions ssd_before_zero.

(** So with the influences of weight zero at the end it is the sum over all influences. *)
Theorem ssd_partial order inv skin points worlds : Permutation order (seq 0 (length skin)) ->
  length worlds = length inv -> length skin = length points -> (forall row, In row skin -> row_ok (length inv) row /\ zeros_last row) ->
  exists result, apply_ssd order inv skin points worlds = Ok result /\ length result = length points /\
    forall i row p, nth_error skin i = Some row -> nth_error points i = Some p ->
      exists v, nth_error result i = Some v /\ skinned worlds inv row p v.
Proof.
  intros P L1 L2 H. destruct (ssd_before_zero order inv skin points worlds P L1 L2) as (r & E & Lr & N).
  { intros row Hr. apply H, Hr. }
  exists r. split; [exact E|]. split; [exact Lr|]. intros i row p E1 E2. destruct (N i row p E1 E2) as (v & Nv & S). exists v. split; [exact Nv|].
  apply sum_all; [|apply H; eapply nth_error_In; eauto|exact S]. intros x Hx. left. auto.
Qed.
Print Assumptions ssd_partial.

(** The sum is determined by the table, so the last two statements say what the result is. *)
Lemma adds_fun worlds inv p x a b : adds worlds inv p x a -> adds worlds inv p x b -> a = b.
Proof.
  intros [[E ->]|(w & bd & E1 & E2 & ->)] [[E' ->]|(w' & bd' & E1' & E2' & ->)]; try reflexivity.
  - rewrite E, vscale_0_l. reflexivity.
  - rewrite E', vscale_0_l. reflexivity.
  - congruence.
Qed.
Lemma adds_dir_fun worlds inv p x a b : adds_dir worlds inv p x a -> adds_dir worlds inv p x b -> a = b.
Proof.
  intros [[E ->]|(w & bd & E1 & E2 & ->)] [[E' ->]|(w' & bd' & E1' & E2' & ->)]; try reflexivity.
  - rewrite E, vscale_0_l. reflexivity.
  - rewrite E', vscale_0_l. reflexivity.
  - congruence.
Qed.
Lemma sum_fun {A} (P : A -> vec3 -> Prop) : (forall x a b, P x a -> P x b -> a = b) ->
  forall row vs vs', Forall2 P row vs -> Forall2 P row vs' -> vs = vs'.
Proof.
  intros U. induction row as [|x row IH]; intros vs vs' H H'; inversion H; inversion H'; subst; [reflexivity|].
  f_equal; [eapply U; eauto|apply IH; assumption].
Qed.
Theorem skinned_unique worlds inv row p v v' : skinned worlds inv row p v -> skinned worlds inv row p v' -> v = v'.
Proof. intros (vs & F & ->) (vs' & F' & ->). f_equal. eapply sum_fun; eauto. apply adds_fun. Qed.
Print Assumptions skinned_unique.

(** An influence after one of weight zero is lost. *)
Theorem ssd_refuted : exists inv skin points worlds row p v,
  skin = [row] /\ points = [p] /\ length worlds = length inv /\ row_ok (length inv) row /\ total row = 1 /\
  skinned worlds inv row p v /\ apply_ssd [0%nat] inv skin points worlds = Ok [vzero] /\ v <> vzero.
Proof.
  exists [Aff mid vzero], [[(0%nat, 0); (0%nat, 1)]], [V3 1 2 3], [Aff mid vzero], [(0%nat, 0); (0%nat, 1)], (V3 1 2 3), (V3 1 2 3).
  split; [reflexivity|]. split; [reflexivity|]. split; [reflexivity|]. split.
  { intros j w [E|[E|[]]] _; injection E as <- _; cbn; lia. }
  split; [cbn; ring|]. split.
  { exists [vzero; V3 1 2 3]. split; [|cbn [vsum fold_right]; vec_ring].
    constructor; [left; auto|]. constructor; [|constructor]. right. exists (Aff mid vzero), (Aff mid vzero).
    split; [reflexivity|]. split; [reflexivity|]. unfold aff_point. cbn [snd alin atrans]. vec_unfold. f_equal; ring. }
  split.
  - unfold apply_ssd. cbn [length Nat.eqb negb]. unfold for_vertices. cbn [ofold rd obind repeat nth_error ssd_row].
    unfold Reqb. destruct (Req_EM_T 0 0); [|contradiction]. reflexivity.
  - intros E. apply (f_equal vx) in E. cbn in E. lra.
Qed.
Print Assumptions ssd_refuted.

(** ** Rigid motion *)

Lemma forall2_impl {A B} (P Q : A -> B -> Prop) l l' : (forall x y, P x y -> Q x y) -> Forall2 P l l' -> Forall2 Q l l'.
Proof. intros H. induction 1; constructor; auto. Qed.

Lemma rigid_sum (g : vec3) : forall row vs, Forall2 (fun x v => v = vscale (snd x) g) row vs -> vsum vs = vscale (total row) g.
Proof.
  unfold total. induction row as [|x row IH]; intros vs H; inversion H; subst; cbn [vsum fold_right map rsum].
  - rewrite vscale_0_l. reflexivity.
  - change (fold_right vadd vzero l') with (vsum l'). rewrite (IH _ H4). vec_ring.
Qed.

(** If the weights of each vertex sum to one and every joint has moved from its bind pose by the same
    map [g], every vertex moves by [g]. *)
Theorem ssd_common_motion order inv skin points worlds bind g : Permutation order (seq 0 (length skin)) ->
  length worlds = length inv -> length bind = length inv -> length skin = length points ->
  (forall row, In row skin -> row_ok (length inv) row /\ zeros_last row /\ total row = 1) ->
  (forall j b i p, nth_error bind j = Some b -> nth_error inv j = Some i -> aff_point b (aff_point i p) = p) ->
  (forall j b w p, nth_error bind j = Some b -> nth_error worlds j = Some w -> aff_point w p = aff_point g (aff_point b p)) ->
  apply_ssd order inv skin points worlds = Ok (map (aff_point g) points).
Proof.
  intros P L1 L2 L3 H Hi Hw. destruct (ssd_partial order inv skin points worlds P L1 L3) as (r & E & Lr & N).
  { intros row Hr. destruct (H row Hr) as (A & B & _). auto. }
  rewrite E. f_equal. apply nth_error_ext_len; [rewrite map_length; exact Lr|]. intros i Hl. rewrite Lr in Hl.
  destruct (nth_error_lt skin i) as [row Er]; [lia|]. destruct (nth_error_lt points i Hl) as [p Ep].
  destruct (N i row p Er Ep) as (v & -> & (vs & F & ->)). rewrite nth_error_map, Ep. cbn [option_map]. f_equal.
  destruct (H row) as (_ & _ & T); [eapply nth_error_In; eauto|].
  rewrite (rigid_sum (aff_point g p) row vs), T, vscale_1; [reflexivity|].
  revert F. apply forall2_impl. intros x v [[E0 ->]|(w & b & E1 & E2 & ->)].
  - rewrite E0, vscale_0_l. reflexivity.
  - f_equal. destruct (nth_error_lt bind (fst x)) as [bd Eb]; [apply nth_error_len in E2; lia|].
    rewrite (Hw _ _ _ _ Eb E1), (Hi _ _ _ _ Eb E2). reflexivity.
Qed.
Print Assumptions ssd_common_motion.

(** ** Normals *)

Lemma vnorm2_pos_zero d : 0 < vnorm2 d \/ d = vzero.
Proof.
  destruct d as [x y z]. unfold vnorm2, vdot, vzero. cbn [vx vy vz].
  destruct (Req_EM_T x 0) as [->|X]; [|left; nra]. destruct (Req_EM_T y 0) as [->|Y]; [|left; nra].
  destruct (Req_EM_T z 0) as [->|Z]; [right; reflexivity|left; nra].
Qed.
Lemma normalized_direction d : direction_of d (normalized d).
Proof.
  unfold normalized, Rltb. destruct (Rlt_dec 0 (vnorm2 d)) as [H|H].
  - right. pose proof (sqrt_lt_R0 _ H) as S. pose proof (sqrt_sqrt (vnorm2 d) (Rlt_le _ _ H)) as Q. split.
    + replace (vdot (vscale (/ sqrt (vnorm2 d)) d) (vscale (/ sqrt (vnorm2 d)) d)) with (/ sqrt (vnorm2 d) * / sqrt (vnorm2 d) * vnorm2 d) by (unfold vnorm2; vec_ring).
      rewrite <- Q at 3. field. lra.
    + exists (sqrt (vnorm2 d)). split; [exact S|]. rewrite vscale_scale, Rinv_r, vscale_1 by lra. reflexivity.
  - left. destruct (vnorm2_pos_zero d) as [|E]; [contradiction|]. auto.
Qed.

(** The mesh version: vertices as above, normals are directions of the same sums. *)
Theorem ssd_mesh_partial order inv skin mesh worlds output : Permutation order (seq 0 (length skin)) ->
  (length inv <= length worlds)%nat -> length skin = length mesh -> length output = length mesh ->
  (forall row, In row skin -> row_ok (length inv) row /\ zeros_last row) ->
  exists result, apply_ssd_mesh order inv skin mesh worlds output = Ok result /\ length result = length mesh /\
    forall i row p n, nth_error skin i = Some row -> nth_error mesh i = Some (p, n) ->
      exists p' n' d, nth_error result i = Some (p', n') /\ skinned worlds inv row p p' /\ skinned_dir worlds inv row n d /\ direction_of d n'.
Proof.
  intros P L1 L2 L3 H. unfold apply_ssd_mesh. apply Nat.leb_le in L1 as L1'. rewrite L1', L2, L3, !Nat.eqb_refl. cbn [negb].
  match goal with |- context[for_vertices order skin mesh ?f output] => set (F := f) end.
  assert (FO : forall row p n, In row skin -> exists p' d, F row (p, n) = Ok (p', normalized d) /\ skinned worlds inv row p p' /\ skinned_dir worlds inv row n d).
  { intros row p n Hr. destruct (H row Hr) as [H1 H2].
    destruct (ssd_normal_row_ok worlds inv p n L1 row (vzero, vzero) H1) as (v & d & E & S1 & S2). exists v, d. unfold F. cbn [fst snd].
    rewrite E. cbn [obind fst snd]. rewrite !vadd_0_l. split; [reflexivity|]. split.
    - apply sum_all; [|exact H2|exact S1]. intros x Hx. left. auto.
    - apply sum_all; [|exact H2|exact S2]. intros x Hx. left. auto. }
  destruct (for_vertices_all F skin mesh order output P L2) as (r & E & Lr & N); [lia| |].
  - intros i row [p n] E1 _. destruct (FO row p n) as (p' & d & Ef & _); [eapply nth_error_In; eauto|eauto].
  - exists r. split; [exact E|]. split; [lia|]. intros i row p n E1 E2. destruct (N i row (p, n) E1 E2) as (v & Nv & Ev).
    destruct (FO row p n) as (p' & d & Ef & S1 & S2); [eapply nth_error_In; eauto|]. exists p', (normalized d), d.
    split; [congruence|]. split; [exact S1|]. split; [exact S2|]. apply normalized_direction.
Qed.
Print Assumptions ssd_mesh_partial.

(** A common rigid motion moves the mesh, with its unit normals, rigidly. *)
Lemma aff_lin a d : mvec (alin a) d = vsub (aff_point a d) (aff_point a vzero).
Proof. destruct a as [m t]. unfold aff_point. cbn [alin atrans]. vec_ring. Qed.
Lemma aff_lin_sub a p q : vsub (aff_point a p) (aff_point a q) = mvec (alin a) (vsub p q).
Proof. destruct a as [m t]. unfold aff_point. cbn [alin atrans]. vec_ring. Qed.
Lemma unit_direction d n : vdot d d = 1 -> direction_of d n -> n = d.
Proof.
  intros D [[-> _]|(N & s & S & ->)]; [unfold vdot, vzero in D; cbn in D; lra|].
  assert (E : s = 1); [|rewrite E, vscale_1; reflexivity].
  replace (vdot (vscale s n) (vscale s n)) with (s * s * vdot n n) in D by vec_ring. rewrite N in D. nra.
Qed.
Theorem ssd_mesh_common_motion order inv skin mesh worlds output bind g : Permutation order (seq 0 (length skin)) ->
  length worlds = length inv -> length bind = length inv -> length skin = length mesh -> length output = length mesh ->
  (forall row, In row skin -> row_ok (length inv) row /\ zeros_last row /\ total row = 1) ->
  (forall j b i p, nth_error bind j = Some b -> nth_error inv j = Some i -> aff_point b (aff_point i p) = p) ->
  (forall j b w p, nth_error bind j = Some b -> nth_error worlds j = Some w -> aff_point w p = aff_point g (aff_point b p)) ->
  (forall d, vdot (mvec (alin g) d) (mvec (alin g) d) = vdot d d) -> (forall p n, In (p, n) mesh -> vdot n n = 1) ->
  apply_ssd_mesh order inv skin mesh worlds output = Ok (map (fun x => (aff_point g (fst x), mvec (alin g) (snd x))) mesh).
Proof.
  intros P L1 L2 L3 L4 H Hi Hw Hg Hn.
  destruct (ssd_mesh_partial order inv skin mesh worlds output P) as (r & E & Lr & N); [lia|assumption|assumption| |].
  { intros row Hr. destruct (H row Hr) as (A & B & _). auto. }
  rewrite E. f_equal. apply nth_error_ext_len; [rewrite map_length; exact Lr|]. intros i Hl. rewrite Lr in Hl.
  destruct (nth_error_lt skin i) as [row Er]; [lia|]. destruct (nth_error_lt mesh i Hl) as [[p n] Ep].
  destruct (N i row p n Er Ep) as (p' & n' & d & -> & (vs & F & ->) & (ds & F' & ->) & D).
  rewrite nth_error_map, Ep. cbn [option_map fst snd]. f_equal.
  destruct (H row) as (_ & _ & T); [eapply nth_error_In; eauto|]. f_equal.
  - rewrite (rigid_sum (aff_point g p) row vs), T, vscale_1; [reflexivity|].
    revert F. apply forall2_impl. intros x v [[E0 ->]|(w & b & E1 & E2 & ->)].
    + rewrite E0, vscale_0_l. reflexivity.
    + f_equal. destruct (nth_error_lt bind (fst x)) as [bd Eb]; [apply nth_error_len in E2; lia|].
      rewrite (Hw _ _ _ _ Eb E1), (Hi _ _ _ _ Eb E2). reflexivity.
  - rewrite (rigid_sum (mvec (alin g) n) row ds), T, vscale_1 in D.
    + apply unit_direction; [|exact D]. rewrite Hg. apply (Hn p n). eapply nth_error_In; eauto.
    + revert F'. apply forall2_impl. intros x v [[E0 ->]|(w & b & E1 & E2 & ->)].
      * rewrite E0, vscale_0_l. reflexivity.
      * f_equal. destruct (nth_error_lt bind (fst x)) as [bd Eb]; [apply nth_error_len in E2; lia|].
        rewrite (aff_lin b n), <- aff_lin_sub, !(Hw _ _ _ _ Eb E1), !(Hi _ _ _ _ Eb E2), <- aff_lin. reflexivity.
Qed.
Print Assumptions ssd_mesh_common_motion.

(** ** Inverse skinning *)

Lemma minv_l m v : mdet m <> 0 -> mvec (minv m) (mvec m v) = v.
Proof.
  intros D. destruct m as [[a b c] [d e f] [g h i]], v as [x y z]. unfold minv, mdet in *.
  cbv beta iota zeta delta [vdot vcross vadd vscale mvec mscale vx vy vz col0 col1 col2] in *. f_equal; field; exact D.
Qed.
Lemma minv_r m v : mdet m <> 0 -> mvec m (mvec (minv m) v) = v.
Proof.
  intros D. destruct m as [[a b c] [d e f] [g h i]], v as [x y z]. unfold minv, mdet in *.
  cbv beta iota zeta delta [vdot vcross vadd vscale mvec mscale vx vy vz col0 col1 col2] in *. f_equal; field; exact D.
Qed.
Lemma aff_inv_l a p : mdet (alin a) <> 0 -> aff_point (aff_inv a) (aff_point a p) = p.
Proof.
  intros D. unfold aff_point, aff_inv. cbn [alin atrans]. rewrite mvec_add, (minv_l _ _ D).
  generalize (mvec (minv (alin a)) (atrans a)). intros t. vec_ring.
Qed.
Lemma mvec_scale_r m s v : mvec m (vscale s v) = vscale s (mvec m v).
Proof. vec_ring. Qed.
Lemma aff_inv_r a p : mdet (alin a) <> 0 -> aff_point a (aff_point (aff_inv a) p) = p.
Proof.
  intros D. unfold aff_point, aff_inv. cbn [alin atrans]. rewrite mvec_add, mvec_scale_r, !(minv_r _ _ D).
  destruct a as [m t]. cbn [atrans]. vec_ring.
Qed.

Lemma blend_row_ok worlds inv : length worlds = length inv -> forall row out, row_ok (length inv) row ->
  exists t, blend_row (skin_transforms worlds inv) row out = Ok t /\
    (forall p, exists v, skinned worlds inv (before_zero row) p v /\ aff_point t p = vadd (aff_point out p) v) /\
    (forall d, exists v, skinned_dir worlds inv (before_zero row) d v /\ mvec (alin t) d = vadd (mvec (alin out) d) v).
Proof.
  intros L. induction row as [|[j w] row IH]; intros out H; cbn [blend_row before_zero snd].
  - exists out. split; [reflexivity|]. split; intros; exists vzero; (split; [exists []; split; [constructor|reflexivity]|rewrite vadd_0_r; reflexivity]).
  - unfold Reqb. destruct (Req_EM_T w 0) as [E|E].
    + exists out. split; [reflexivity|]. split; intros; exists vzero; (split; [exists []; split; [constructor|reflexivity]|rewrite vadd_0_r; reflexivity]).
    + assert (Hj : (j < length inv)%nat) by (apply (H j w); [left; reflexivity|exact E]).
      destruct (nth_error_lt inv j Hj) as [b Eb]. destruct (nth_error_lt worlds j) as [wd Ew]; [lia|].
      rewrite (rd_some _ _ _ (skin_transforms_nth _ _ _ _ _ Ew Eb)). cbn [obind].
      match goal with |- context[blend_row _ row ?o] => destruct (IH o) as (t & E1 & Hp & Hd) end.
      { apply (row_ok_cons _ _ _ H). }
      exists t. split; [exact E1|]. split.
      * intros p. destruct (Hp p) as (v & (vs & F & ->) & Ev). exists (vsum (vscale w (aff_point wd (aff_point b p)) :: vs)). split.
        -- exists (vscale w (aff_point wd (aff_point b p)) :: vs). split; [|reflexivity]. constructor; [|exact F]. right. exists wd, b. auto.
        -- rewrite Ev. cbn [vsum fold_right]. change (fold_right vadd vzero vs) with (vsum vs). rewrite vadd_assoc. f_equal.
           rewrite <- aff_mul_point. destruct out as [m t0]. destruct (aff_mul wd b) as [m1 t1]. unfold aff_point, madd. cbn [alin atrans]. vec_ring.
      * intros d. destruct (Hd d) as (v & (vs & F & ->) & Ev). exists (vsum (vscale w (mvec (alin wd) (mvec (alin b) d)) :: vs)). split.
        -- exists (vscale w (mvec (alin wd) (mvec (alin b) d)) :: vs). split; [|reflexivity]. constructor; [|exact F]. right. exists wd, b. auto.
        -- rewrite Ev. cbn [vsum fold_right]. change (fold_right vadd vzero vs) with (vsum vs). rewrite vadd_assoc. f_equal.
           rewrite <- mmul_vec. destruct out as [m t0]. unfold aff_mul, madd. cbn [alin]. generalize (mmul (alin wd) (alin b)). intros m1. vec_ring.
Qed.
Lemma mvec_unit m : mvec m ex = col0 m /\ mvec m ey = col1 m /\ mvec m ez = col2 m.
Proof. split; [|split]; vec_ring. Qed.

(** applyInverseSSD undoes applySSD, wherever the blended matrices are regular. *)
Theorem inverse_ssd_undoes order inv skin points worlds : Permutation order (seq 0 (length skin)) ->
  length worlds = length inv -> length skin = length points ->
  (forall row, In row skin -> row_ok (length inv) row /\ spans worlds inv (before_zero row)) ->
  exists moved, apply_ssd order inv skin points worlds = Ok moved /\ apply_inverse_ssd inv skin moved worlds = Ok points.
Proof.
  intros P L1 L2 H. destruct (ssd_before_zero order inv skin points worlds P L1 L2) as (mv & E & Lm & N).
  { intros row Hr. apply H, Hr. }
  exists mv. split; [exact E|]. unfold apply_inverse_ssd. rewrite L1, L2, Lm, !Nat.eqb_refl. cbn [negb].
  match goal with |- context[for_vertices _ skin mv ?f ?r] => set (F := f); set (R0 := r) end.
  assert (FO : forall i row q, nth_error skin i = Some row -> nth_error mv i = Some q -> exists p, nth_error points i = Some p /\ F row q = Ok p).
  { intros i row q E1 E2. destruct (nth_error_lt points i) as [p Ep]; [apply nth_error_len in E1; lia|].
    exists p. split; [exact Ep|]. destruct (N i row p E1 Ep) as (v & Nv & S). assert (v = q) as -> by congruence.
    destruct (H row) as [H1 H2]; [eapply nth_error_In; eauto|].
    destruct (blend_row_ok worlds inv L1 row aff_zero H1) as (t & Et & Hp & Hd). unfold F. rewrite Et. cbn [obind]. f_equal.
    assert (Z : forall v, mvec (alin aff_zero) v = vzero) by (intros; unfold aff_zero; cbn [alin]; vec_ring).
    assert (Q : aff_point t p = q).
    { destruct (Hp p) as (v & Sv & Ev). rewrite Ev. unfold aff_point. rewrite Z. cbn [aff_zero atrans]. rewrite !vadd_0_l.
      eapply skinned_unique; eauto. }
    rewrite <- Q. apply aff_inv_l. destruct (mvec_unit (alin t)) as (U0 & U1 & U2).
    destruct (Hd ex) as (a & Sa & Ea), (Hd ey) as (b & Sb & Eb), (Hd ez) as (c & Sc & Ec).
    rewrite Z, vadd_0_l in Ea, Eb, Ec. unfold mdet. rewrite <- U0, <- U1, <- U2, Ea, Eb, Ec. apply H2; assumption. }
  replace (length points) with (length skin) by lia.
  destruct (for_vertices_all F skin mv (seq 0 (length skin)) R0 (Permutation_refl _)) as (r & E' & Lr & N'); [lia| | |].
  - unfold R0. rewrite repeat_length. lia.
  - intros i row q E1 E2. destruct (FO i row q E1 E2) as (p & _ & Ef). eauto.
  - rewrite E'. f_equal. apply nth_error_ext_len; [lia|]. intros i Hi. rewrite Lr in Hi.
    destruct (nth_error_lt skin i Hi) as [row Er]. destruct (nth_error_lt mv i) as [q Eq]; [lia|].
    destruct (N' i row q Er Eq) as (v & Nv & Ev). destruct (FO i row q Er Eq) as (p & Ep & Ef). congruence.
Qed.
Print Assumptions inverse_ssd_undoes.

(** ** Remapping of weights *)

Lemma map_row_ok jmap n : forall row, mapped_row jmap n row ->
  exists row', map_row jmap row = Ok row' /\ length row' = length row /\ (forall j w, In (j, w) row' -> (j < n)%nat) /\
    (forall k, weight_of k row' = weight_onto jmap k row) /\ total row' = total row /\ map snd row' = map snd row.
Proof.
  induction row as [|[j w] row IH]; intros H; cbn [map_row].
  - exists []. repeat split; try reflexivity. intros j w [].
  - destruct (H j w (or_introl eq_refl)) as (k & E & Hk). rewrite (rd_some _ _ _ E). cbn [obind].
    destruct IH as (r' & -> & L & I & W & T & M). { intros j' w' Hi. apply (H j' w'). right. exact Hi. }
    cbn [obind]. exists ((k, w) :: r'). split; [reflexivity|]. split; [cbn; lia|]. split.
    { intros j' w' [Ei|Hi]; [injection Ei as <- _; exact Hk|apply (I j' w' Hi)]. }
    split; [|split; [unfold total in *; cbn [map rsum snd]; rewrite T; reflexivity|cbn [map snd]; rewrite M; reflexivity]].
    intros k0. unfold weight_of, weight_onto in *. cbn [map rsum fst snd]. rewrite E, W. reflexivity.
Qed.

Lemma absorb_ok k : forall r w, let x := absorb k w r in
  length (snd x) = length r /\ map fst (snd x) = map fst r /\ fst x = w + weight_of k r /\
  (forall j, weight_of j (snd x) = if (j =? k)%nat then 0 else weight_of j r) /\
  (forall v, In (k, v) (snd x) -> v = 0).
Proof.
  cbv zeta. unfold weight_of. induction r as [|[j v] r IH]; intros w; cbn [absorb].
  - cbn. repeat split; try reflexivity; [ring|intros j; destruct (j =? k)%nat; reflexivity|contradiction].
  - destruct (Nat.eqb_spec j k) as [->|D]; cbv zeta; cbn [fst snd length map rsum].
    + destruct (IH (w + v)) as (A & B & C & D & E). rewrite A, B, C, Nat.eqb_refl. repeat split; try reflexivity; [ring| |].
      * intros j. rewrite D. destruct (Nat.eqb_spec j k) as [->|Dj].
        -- rewrite Nat.eqb_refl. ring.
        -- destruct (Nat.eqb_spec k j); [congruence|]. reflexivity.
      * intros v' [Ei|Hi]; [congruence|apply E, Hi].
    + destruct (IH w) as (A & B & C & D' & E). rewrite A, B, C. destruct (Nat.eqb_spec j k); [congruence|].
      repeat split; try reflexivity; [ring| |].
      * intros j'. rewrite D'. destruct (Nat.eqb_spec j' k) as [->|Dj]; [|reflexivity].
        destruct (Nat.eqb_spec j k); [congruence|]. ring.
      * intros v' [Ei|Hi]; [congruence|apply E, Hi].
Qed.

Definition nz (x : influence) : bool := negb (Reqb (snd x) 0).
Lemma join_ok : forall n row, (length row <= n)%nat -> let row' := join n row in
  length row' = length row /\ map fst row' = map fst row /\ (forall j, weight_of j row' = weight_of j row) /\
  NoDup (map fst (filter nz row')).
Proof.
  cbv zeta. induction n as [|n IH]; intros row L.
  - destruct row; [|cbn in L; lia]. cbn. repeat split; constructor.
  - destruct row as [|[k w] r]; [cbn; repeat split; constructor|]. cbn [join length map fst] in *. cbv zeta.
    destruct (absorb_ok k r w) as (A & B & C & D & E). cbv zeta in *.
    destruct (IH (snd (absorb k w r))) as (A1 & B1 & C1 & D1); [lia|].
    rewrite A1, A, B1, B. split; [reflexivity|]. split; [reflexivity|]. split.
    + intros j. unfold weight_of in *. cbn [map rsum fst snd]. rewrite C1, D, C. destruct (Nat.eqb_spec j k) as [->|Dj].
      * rewrite Nat.eqb_refl. ring.
      * destruct (Nat.eqb_spec k j); [congruence|]. ring.
    + cbn [filter]. destruct (nz (k, fst (absorb k w r))); [|exact D1]. cbn [map fst]. constructor; [|exact D1].
      intros Hi. apply in_map_iff in Hi as ([k' v] & Ek & Hv). cbn in Ek. subst k'. apply filter_In in Hv as [Hv Hz].
      (* joint k has weight zero in every entry of the rest: no later step gives it weight *)
      assert (Zk : forall m row, (forall v, In (k, v) row -> v = 0) -> forall v, In (k, v) (join m row) -> v = 0).
      { clear. induction m as [|m IH]; intros row H v Hv; cbn [join] in Hv; [apply H, Hv|].
        destruct row as [|[a b] row]; [contradiction|]. cbv zeta in Hv.
        destruct Hv as [Hv|Hv].
        - injection Hv as -> <-. pose proof (H b (or_introl eq_refl)) as ->.
          destruct (absorb_ok k row 0) as (_ & _ & C & _). cbv zeta in C. rewrite C.
          assert (W : weight_of k row = 0); [|rewrite W; ring]. unfold weight_of. apply rsum_map_zero. intros [a c] Hx. cbn [fst snd].
          destruct (Nat.eqb_spec a k) as [->|]; [|reflexivity]. apply H. right. exact Hx.
        - apply (IH (snd (absorb a b row))); [|exact Hv]. clear v Hv. intros v Hv.
          assert (K : forall r w v, In (k, v) (snd (absorb a w r)) -> v = 0 \/ In (k, v) r).
          { clear. induction r as [|[j c] r IH]; intros w v Hv; cbn [absorb] in Hv; [contradiction|].
            destruct (j =? a)%nat; cbv zeta in Hv; cbn [snd] in Hv; destruct Hv as [Hv|Hv].
            - left. congruence.
            - destruct (IH _ _ Hv); [left; assumption|right; right; assumption].
            - right. left. exact Hv.
            - destruct (IH _ _ Hv); [left; assumption|right; right; assumption]. }
          destruct (K _ _ _ Hv) as [|Hi]; [assumption|]. apply H. right. exact Hi. }
      pose proof (Zk n _ E v Hv) as ->. unfold nz, Reqb in Hz. cbn [snd] in Hz. destruct (Req_EM_T 0 0); [discriminate|contradiction].
Qed.

Lemma exchange_ok : forall r x, let z := exchange x r in
  Permutation (x :: r) (fst z :: snd z) /\ (forall y, In y (snd z) -> snd y <= snd (fst z)) /\ length (snd z) = length r.
Proof.
  cbv zeta. induction r as [|y r IH]; intros x; cbn [exchange].
  - cbn. repeat split; [apply Permutation_refl|contradiction].
  - unfold Rltb. destruct (Rlt_dec (snd x) (snd y)) as [L|L]; cbv zeta; cbn [fst snd length].
    + destruct (IH y) as (P & M & Le). split.
      { eapply Permutation_trans; [apply perm_swap|]. eapply Permutation_trans; [|apply perm_swap].
        eapply Permutation_trans; [apply perm_swap|]. apply perm_skip. exact P. }
      split; [|lia]. intros u [<-|Hu]; [|apply M, Hu].
      assert (Hy : In y (fst (exchange y r) :: snd (exchange y r))) by (apply (Permutation_in _ P); left; reflexivity).
      destruct Hy as [Hy|Hy]; [rewrite Hy; lra|]. apply M in Hy. lra.
    + destruct (IH x) as (P & M & Le). split.
      { eapply Permutation_trans; [apply perm_swap|]. eapply Permutation_trans; [|apply perm_swap]. apply perm_skip. exact P. }
      split; [|lia]. intros u [<-|Hu]; [|apply M, Hu].
      assert (Hx : In x (fst (exchange x r) :: snd (exchange x r))) by (apply (Permutation_in _ P); left; reflexivity).
      destruct Hx as [Hx|Hx]; [rewrite Hx; lra|]. apply M in Hx. lra.
Qed.
Lemma sort_row_ok : forall n row, (length row <= n)%nat -> Permutation row (sort_row n row) /\ decreasing (sort_row n row).
Proof.
  induction n as [|n IH]; intros row L.
  - destruct row; [|cbn in L; lia]. split; [apply Permutation_refl|]. intros [|i] k x y; discriminate.
  - destruct row as [|x r]; [split; [apply Permutation_refl|intros [|i] k a b; discriminate]|].
    cbn [sort_row length] in *. cbv zeta. destruct (exchange_ok r x) as (P & M & Le). cbv zeta in *.
    destruct (IH (snd (exchange x r))) as (P' & D); [lia|]. split.
    + eapply Permutation_trans; [exact P|]. apply perm_skip. exact P'.
    + intros i k a b Hik Ha Hb. destruct k as [|k]; [lia|]. cbn [nth_error] in Hb. destruct i as [|i]; cbn [nth_error] in Ha.
      * apply (f_equal (fun o => match o with Some c => c | None => a end)) in Ha. subst a. apply M.
        apply (Permutation_in _ (Permutation_sym P')). eapply nth_error_In; eauto.
      * apply (D i k a b); [lia|exact Ha|exact Hb].
Qed.

Lemma rsum_perm l l' : Permutation l l' -> rsum l = rsum l'.
Proof. induction 1; cbn [rsum]; lra. Qed.
Lemma filter_perm {A} (P : A -> bool) l l' : Permutation l l' -> Permutation (filter P l) (filter P l').
Proof.
  induction 1; cbn [filter].
  - constructor.
  - destruct (P x); [apply perm_skip|]; assumption.
  - destruct (P x), (P y); auto using perm_swap, Permutation_refl.
  - eapply Permutation_trans; eauto.
Qed.
Lemma nodup_one row : NoDup (map fst (filter nz row)) -> one_entry_each row.
Proof.
  induction row as [|x row IH]; intros H i k a b Hik Ha Hb E; [destruct i; discriminate|].
  destruct k as [|k]; [lia|]. cbn [nth_error] in Hb. cbn [filter] in H. destruct i as [|i]; cbn [nth_error] in Ha.
  - apply (f_equal (fun o => match o with Some c => c | None => a end)) in Ha. subst a.
    destruct (nz x) eqn:Z.
    + right. cbn [map] in H. inversion H as [|u v Hn _]; subst. destruct (Req_EM_T (snd b) 0) as [|Nb]; [assumption|]. destruct Hn.
      rewrite E. apply in_map, filter_In. split; [eapply nth_error_In; eauto|]. unfold nz, Reqb. destruct (Req_EM_T (snd b) 0); [contradiction|reflexivity].
    + left. unfold nz, Reqb in Z. destruct (Req_EM_T (snd x) 0); [assumption|discriminate].
  - apply (IH ltac:(destruct (nz x); [cbn [map] in H; inversion H; assumption|exact H]) i k a b); [lia|assumption..].
Qed.
Lemma weight_total row n : (forall j w, In (j, w) row -> (j < n)%nat) -> total row = sumn n (fun k => weight_of k row).
Proof.
  intros H. unfold total, sumn, weight_of. rewrite rsum_map_swap. apply rsum_map_ext. intros [j w] Hx. cbn [fst snd].
  specialize (H j w Hx). clear Hx. assert (G : forall m s, (s <= j < s + m)%nat -> w = rsum (map (fun k => if (j =? k)%nat then w else 0) (seq s m))).
  { induction m as [|m IH]; intros s Hs; [lia|]. cbn [seq map rsum]. destruct (Nat.eqb_spec j s) as [->|D].
    - rewrite rsum_map_zero; [ring|]. intros k Hk. apply in_seq in Hk. destruct (Nat.eqb_spec s k); [lia|reflexivity].
    - rewrite <- (IH (S s)) by lia. ring. }
  apply (G n 0%nat). lia.
Qed.

(** The new joint of an influence gets the sum of the weights of the joints mapped to it; totals are
    kept, rows are sorted, joints are valid and appear once. *)
Lemma remap_row_ok jmap n row : mapped_row jmap n row ->
  exists row', remap_row jmap row = Ok row' /\ length row' = length row /\ (forall k, weight_of k row' = weight_onto jmap k row) /\
    total row' = total row /\ decreasing row' /\ one_entry_each row' /\ (forall j w, In (j, w) row' -> (j < n)%nat).
Proof.
  intros H. unfold remap_row. destruct (map_row_ok jmap n row H) as (r1 & -> & L1 & I1 & W1 & T1 & _). cbn [obind]. cbv zeta.
  destruct (join_ok (length r1) r1 (le_n _)) as (L2 & F2 & W2 & N2). cbv zeta in *.
  destruct (sort_row_ok (length (join (length r1) r1)) (join (length r1) r1) (le_n _)) as (P & D).
  set (r2 := join (length r1) r1) in *. set (r3 := sort_row (length r2) r2) in *.
  exists r3. split; [reflexivity|]. split; [rewrite <- (Permutation_length P); lia|].
  assert (W3 : forall k, weight_of k r3 = weight_of k r2).
  { intros k. unfold weight_of. apply rsum_perm, Permutation_map, Permutation_sym, P. }
  assert (I2 : forall j w, In (j, w) r2 -> (j < n)%nat).
  { intros j w Hj. assert (Hf : In j (map fst r2)) by (apply in_map_iff; exists (j, w); auto). rewrite F2 in Hf.
    apply in_map_iff in Hf as ([j' w'] & <- & Hf). apply (I1 _ _ Hf). }
  assert (I3 : forall j w, In (j, w) r3 -> (j < n)%nat).
  { intros j w Hj. apply (I2 j w), (Permutation_in _ (Permutation_sym P)), Hj. }
  split; [intros k; rewrite W3, W2; apply W1|]. split.
  { rewrite (weight_total r3 n I3), <- T1, (weight_total r1 n I1). apply rsum_map_ext. intros k _. rewrite W3, W2. reflexivity. }
  split; [exact D|]. split; [|exact I3]. apply nodup_one.
  eapply Permutation_NoDup; [|exact N2]. apply Permutation_map, filter_perm, P.
Qed.

Theorem remap_skin_correct jmap n skin : (forall row, In row skin -> mapped_row jmap n row) ->
  exists skin', remap_skin jmap skin = Ok skin' /\ length skin' = length skin /\
    forall i row, nth_error skin i = Some row -> exists row', nth_error skin' i = Some row' /\ length row' = length row /\
      (forall k, weight_of k row' = weight_onto jmap k row) /\ total row' = total row /\ decreasing row' /\ one_entry_each row' /\
      (forall j w, In (j, w) row' -> (j < n)%nat).
Proof.
  induction skin as [|row skin IH]; intros H; cbn [remap_skin].
  - exists []. repeat split. intros [|i] row Hi; discriminate.
  - destruct (remap_row_ok jmap n row (H row (or_introl eq_refl))) as (row' & E & R). rewrite E. cbn [obind].
    destruct IH as (s' & -> & L & N). { intros r Hr. apply H. right. exact Hr. }
    cbn [obind]. exists (row' :: s'). split; [reflexivity|]. split; [cbn; lia|]. intros [|i] r Hr; cbn [nth_error] in *.
    + apply (f_equal (fun o => match o with Some c => c | None => r end)) in Hr. subst r. exists row'. split; [reflexivity|exact R].
    + apply N, Hr.
Qed.
Print Assumptions remap_skin_correct.

(** Where the weights are not negative, the zeros of a remapped row come last, as applySSD needs. *)
Theorem remap_zeros_last jmap n row : mapped_row jmap n row -> (forall j w, In (j, w) row -> 0 <= w) ->
  exists row', remap_row jmap row = Ok row' /\ zeros_last row'.
Proof.
  intros H Pos. destruct (remap_row_ok jmap n row H) as (row' & E & _ & _ & _ & D & _ & _). exists row'. split; [exact E|].
  assert (NN : forall j w, In (j, w) row' -> 0 <= w).
  { unfold remap_row in E. destruct (map_row_ok jmap n row H) as (r1 & E1 & _ & _ & _ & _ & M). rewrite E1 in E. cbn [obind] in E. cbv zeta in E.
    apply (f_equal (fun o => match o with Ok c => c | _ => [] end)) in E. subst row'.
    assert (N1 : forall x, In x r1 -> 0 <= snd x).
    { intros x Hx. assert (Hs : In (snd x) (map snd r1)) by (apply in_map, Hx). rewrite M in Hs. apply in_map_iff in Hs as ([j w] & <- & Hs). apply (Pos j w Hs). }
    assert (Ab : forall k r w, (forall x, In x r -> 0 <= snd x) -> 0 <= w -> 0 <= fst (absorb k w r) /\ forall x, In x (snd (absorb k w r)) -> 0 <= snd x).
    { clear. intros k. induction r as [|[j v] r IH]; intros w Hr Hw; cbn [absorb]; [split; [exact Hw|contradiction]|].
      pose proof (Hr _ (or_introl eq_refl)) as Hv. cbn [snd] in Hv.
      assert (Hr' : forall x, In x r -> 0 <= snd x) by (intros x Hx; apply Hr; right; exact Hx).
      destruct (j =? k)%nat; cbv zeta; cbn [fst snd].
      - destruct (IH (w + v) Hr' ltac:(lra)) as [A B]. split; [exact A|]. intros x [<-|Hx]; [cbn; lra|apply B, Hx].
      - destruct (IH w Hr' Hw) as [A B]. split; [exact A|]. intros x [<-|Hx]; [cbn; lra|apply B, Hx]. }
    assert (Jn : forall m r, (forall x, In x r -> 0 <= snd x) -> forall x, In x (join m r) -> 0 <= snd x).
    { clear - Ab. induction m as [|m IH]; intros r Hr x Hx; cbn [join] in Hx; [apply Hr, Hx|].
      destruct r as [|[k w] r]; [contradiction|]. cbv zeta in Hx.
      destruct (Ab k r w) as [A B]; [intros y Hy; apply Hr; right; exact Hy|apply (Hr (k, w)); left; reflexivity|].
      destruct Hx as [<-|Hx]; [exact A|]. apply (IH _ B _ Hx). }
    intros j w Hj. destruct (sort_row_ok _ (join (length r1) r1) (le_n _)) as [P _].
    apply (Permutation_in _ (Permutation_sym P)) in Hj. apply (Jn _ _ N1 _ Hj). }
  intros i k [a x] [b y] Hik Ha Hb E0. pose proof (D i k _ _ Hik Ha Hb) as Le. cbn [snd] in *. apply nth_error_In in Hb. pose proof (NN b y Hb). lra.
Qed.
Print Assumptions remap_zeros_last.

(** mapSkinWeights renames the joints that have weight and changes nothing else. *)
Theorem map_weights_correct jmap row : (forall j w, In (j, w) row -> w <> 0 -> exists k, nth_error jmap j = Some (Some k)) ->
  exists row', map_weights_row jmap row = Ok row' /\ length row' = length row /\
    forall i j w, nth_error row i = Some (j, w) -> exists j', nth_error row' i = Some (j', w) /\
      (w = 0 -> j' = j) /\ (w <> 0 -> nth_error jmap j = Some (Some j')).
Proof.
  induction row as [|[j w] row IH]; intros H; cbn [map_weights_row].
  - exists []. repeat split. intros [|i] j w Hi; discriminate.
  - destruct IH as (r' & E & L & N). { intros j' w' Hi. apply (H j' w'). right. exact Hi. }
    unfold Reqb. destruct (Req_EM_T w 0) as [Z|Z].
    + rewrite E. cbn [obind]. exists ((j, w) :: r'). split; [reflexivity|]. split; [cbn; lia|].
      intros [|i] a b Hi; cbn [nth_error] in *; [|apply N, Hi]. injection Hi as <- <-. exists j. split; [reflexivity|]. split; [auto|contradiction].
    + destruct (H j w (or_introl eq_refl) Z) as [k Ek]. rewrite (rd_some _ _ _ Ek). cbn [obind]. rewrite E. cbn [obind].
      exists ((k, w) :: r'). split; [reflexivity|]. split; [cbn; lia|].
      intros [|i] a b Hi; cbn [nth_error] in *; [|apply N, Hi]. injection Hi as <- <-. exists k. split; [reflexivity|]. split; [contradiction|auto].
Qed.
Print Assumptions map_weights_correct.

(** Two joints, a vertex between them. *)
Example skin_case_row : list (nat * R) := [(0%nat, /4); (1%nat, 3 / 4); (0%nat, 0)].
Example skin_case : row_ok 2 skin_case_row /\ zeros_last skin_case_row /\ total skin_case_row = 1 /\
  mapped_row [Some 0%nat; Some 0%nat] 1 skin_case_row /\ weight_onto [Some 0%nat; Some 0%nat] 0 skin_case_row = 1 /\
  (let t1 := Aff mid (V3 4 0 0) in let id := Aff mid vzero in
   skinned [t1; id] [id; id] skin_case_row (V3 1 1 1) (V3 2 1 1) /\ spans [t1; id] [id; id] (before_zero skin_case_row)).
Proof.
  assert (Z : zeros_last skin_case_row).
  { intros i k x y Hik Hx Hy E. destruct i as [|[|[|i]]]; cbn in Hx; try (destruct i; discriminate); injection Hx as <-; cbn [snd] in E; try lra.
    destruct k as [|[|[|k]]]; try lia. destruct k; discriminate. }
  split; [|split; [exact Z|split; [|split; [|split]]]].
  - intros j w [E|[E|[E|[]]]] _; injection E as <- _; lia.
  - unfold total. cbn. lra.
  - intros j w [E|[E|[E|[]]]]; injection E as <- _; exists 0%nat; (split; [reflexivity|lia]).
  - unfold weight_onto. cbn. lra.
  - cbv zeta. split.
    + exists [V3 (5 / 4) (/ 4) (/ 4); V3 (3 / 4) (3 / 4) (3 / 4); vzero]. split.
      * constructor; [|constructor; [|constructor; [|constructor]]].
        -- right. do 2 eexists. split; [reflexivity|]. split; [reflexivity|]. unfold aff_point. cbn [snd alin atrans]. vec_unfold. f_equal; field.
        -- right. do 2 eexists. split; [reflexivity|]. split; [reflexivity|]. unfold aff_point. cbn [snd alin atrans]. vec_unfold. f_equal; field.
        -- left. auto.
      * cbn [vsum fold_right]. vec_unfold. f_equal; field.
    + cbn [before_zero skin_case_row snd]. destruct (Req_EM_T (/ 4) 0); [lra|]. destruct (Req_EM_T (3 / 4) 0); [lra|]. destruct (Req_EM_T 0 0); [|lra].
      assert (G : forall d a, skinned_dir [Aff mid (V3 4 0 0); Aff mid vzero] [Aff mid vzero; Aff mid vzero] [(0%nat, / 4); (1%nat, 3 / 4)] d a -> a = d).
      { intros d a (vs & F & ->). assert (E : vs = [vscale (/4) d; vscale (3 / 4) d]).
        { eapply sum_fun; [apply adds_dir_fun|exact F|]. constructor; [|constructor; [|constructor]]; right; do 2 eexists;
            (split; [reflexivity|]); (split; [reflexivity|]); cbn [snd alin]; vec_ring. }
        rewrite E. cbn [vsum fold_right]. destruct d. vec_unfold. f_equal; field. }
      intros a b c Ha Hb Hc. rewrite (G _ _ Ha), (G _ _ Hb), (G _ _ Hc). vec_unfold. lra.
Qed.
