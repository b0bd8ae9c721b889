(** Lemmas for C117. *)

From Coq Require Import Reals List Arith ZArith Bool Lia Lra Permutation.
From Verif Require Import Prelude Loops Rbool R3 Normals_model Normals_spec.
Import ListNotations.
Local Open Scope outcome_scope.
Local Open Scope R_scope.

Fixpoint times {A} (n : nat) (f : A -> A) (a : A) : A := match n with 0%nat => a | S k => times k f (f a) end.
Definition count_corner (i : nat) (ks : list Z) : nat := length (filter (fun k => (k =? Z.of_nat i)%Z) ks).

Lemma add_corners normal : forall ks ns, (forall k, In k ks -> (0 <= k < Z.of_nat (length ns))%Z) ->
  exists ns', ofold (fun k ns => let* m := rd ns (Z.to_nat k) in wr ns (Z.to_nat k) (pt_map2 Rplus m normal)) ks ns = Ok ns' /\
    length ns' = length ns /\
    forall i, nth_error ns' i = option_map (times (count_corner i ks) (fun m => pt_map2 Rplus m normal)) (nth_error ns i).
Proof.
  induction ks as [|k ks IH]; intros ns H; cbn [ofold].
  - exists ns. split; [reflexivity|]. split; [reflexivity|]. intros i. cbn. destruct (nth_error ns i); reflexivity.
  - pose proof (H k (or_introl eq_refl)) as Hk. assert (Hn : (Z.to_nat k < length ns)%nat) by lia.
    destruct (nth_error ns (Z.to_nat k)) as [m|] eqn:Em; [|apply nth_error_None in Em; lia].
    rewrite (rd_some _ _ _ Em). cbn [obind].
    destruct (wr_ok ns (Z.to_nat k) (pt_map2 Rplus m normal) Hn) as (n1 & E1 & L1 & N1 & O1). rewrite E1. cbn [obind].
    destruct (IH n1) as (n2 & E2 & L2 & A2).
    { intros j Hj. rewrite L1. apply H. right. exact Hj. }
    exists n2. split; [exact E2|]. split; [congruence|]. intros i. rewrite A2. unfold count_corner. cbn [filter].
    destruct (Z.eqb_spec k (Z.of_nat i)) as [->|D].
    + rewrite Nat2Z.id in *. rewrite N1, Em. reflexivity.
    + rewrite O1 by lia. reflexivity.
Qed.

Lemma times_real n w m : times n (fun a => pt_map2 Rplus a (real w)) (real m) = real (vadd m (vscale (INR n) w)).
Proof.
  revert m. induction n as [|n IH]; intros m.
  - cbn [times INR]. rewrite vscale_0_l, vadd_0_r. reflexivity.
  - cbn [times]. change (pt_map2 Rplus (real m) (real w)) with (real (vadd m w)). rewrite IH, S_INR. f_equal.
    destruct m, w. unfold vadd, vscale. cbn. f_equal; ring.
Qed.

(** ** One face *)

Lemma vertex_some verts k p : vertex verts k = Some p -> (0 <= k < Z.of_nat (length verts))%Z /\ nth_error verts (Z.to_nat k) = Some p.
Proof.
  unfold vertex. destruct (Z.ltb_spec k 0); [discriminate|]. intros E. split; [|exact E].
  assert (Z.to_nat k < length verts)%nat by (apply nth_error_Some; congruence). lia.
Qed.
Lemma vertex_none verts k : vertex verts k = None -> ((k <? 0) || (Z.of_nat (length verts) <=? k))%Z = true.
Proof.
  unfold vertex. destruct (Z.ltb_spec k 0); [reflexivity|]. intros E. apply nth_error_None in E. cbn [orb]. apply Z.leb_le. lia.
Qed.
Lemma vertex_range (verts : list point) k : (0 <= k < Z.of_nat (length verts))%Z -> ((k <? 0) || (Z.of_nat (length verts) <=? k))%Z = false.
Proof. intros H. apply orb_false_iff. split; [apply Z.ltb_ge|apply Z.leb_gt]; lia. Qed.

Definition raw_normal (a b c : point) : point := pt_cross (pt_map2 Rminus b a) (pt_map2 Rminus c a).

Lemma face_out verts f ns : corners verts f = None -> normals_face verts f ns = Ok ns.
Proof.
  destruct f as [[a b] c]. unfold corners, normals_face. cbn [fst snd existsb].
  destruct (vertex verts a) eqn:Ea; [|rewrite (vertex_none _ _ Ea); reflexivity].
  destruct (vertex verts b) eqn:Eb; [|rewrite (vertex_none _ _ Eb), orb_true_r; reflexivity].
  destruct (vertex verts c) eqn:Ec; [discriminate|]. rewrite (vertex_none _ _ Ec). cbn [orb]. rewrite !orb_true_r. reflexivity.
Qed.
Lemma face_in verts f a b c ns : corners verts f = Some (a, b, c) -> length ns = length verts ->
  normals_face verts f ns = if is_nan (px (raw_normal a b c)) then Ok ns
    else ofold (fun k ns => let* m := rd ns (Z.to_nat k) in wr ns (Z.to_nat k) (pt_map2 Rplus m (raw_normal a b c))) [fst (fst f); snd (fst f); snd f] ns.
Proof.
  destruct f as [[i j] k]. unfold corners, normals_face. cbn [fst snd].
  destruct (vertex verts i) eqn:Ei; [|discriminate]. destruct (vertex verts j) eqn:Ej; [|discriminate]. destruct (vertex verts k) eqn:Ek; [|discriminate].
  intros H _. injection H as -> -> ->.
  destruct (vertex_some _ _ _ Ei) as [Ri Ni]. destruct (vertex_some _ _ _ Ej) as [Rj Nj]. destruct (vertex_some _ _ _ Ek) as [Rk Nk].
  cbn [existsb]. rewrite !vertex_range by assumption. cbn [orb]. rewrite (rd_some _ _ _ Ni), (rd_some _ _ _ Nj), (rd_some _ _ _ Nk). reflexivity.
Qed.
Lemma corners_range verts f a b c : corners verts f = Some (a, b, c) ->
  forall k, In k [fst (fst f); snd (fst f); snd f] -> (0 <= k < Z.of_nat (length verts))%Z.
Proof.
  unfold corners. destruct (vertex verts (fst (fst f))) eqn:Ei; [|discriminate]. destruct (vertex verts (snd (fst f))) eqn:Ej; [|discriminate].
  destruct (vertex verts (snd f)) eqn:Ek; [|discriminate]. intros _ x [<- | [<- | [<- | []]]]; eapply vertex_some; eassumption.
Qed.

Lemma corner_count f i : has_corner f i = false -> count_corner i [fst (fst f); snd (fst f); snd f] = 0%nat.
Proof.
  unfold has_corner, count_corner. cbn [filter]. destruct (_ =? _)%Z; [discriminate|]. destruct (_ =? _)%Z; [discriminate|]. destruct (_ =? _)%Z; [discriminate|]. reflexivity.
Qed.

(** A face counts once, because a face that meets a vertex twice has no area. *)
Lemma count_normal verts f a b c u v w i : corners verts f = Some (a, b, c) -> a = real u -> b = real v -> c = real w -> has_corner f i = true ->
  vscale (INR (count_corner i [fst (fst f); snd (fst f); snd f])) (vcross (vsub v u) (vsub w u)) = vcross (vsub v u) (vsub w u).
Proof.
  intros C -> -> -> H. unfold corners in C.
  destruct (vertex verts (fst (fst f))) as [p|] eqn:Ei; [|discriminate]. destruct (vertex verts (snd (fst f))) as [q|] eqn:Ej; [|discriminate].
  destruct (vertex verts (snd f)) as [r|] eqn:Ek; [|discriminate]. injection C as -> -> ->.
  assert (Z1 : forall x y, vcross (vsub x x) y = vzero) by (intros x y; destruct x, y; vec_unfold; f_equal; ring).
  assert (Z2 : forall x y, vcross y (vsub x x) = vzero) by (intros x y; destruct x, y; vec_unfold; f_equal; ring).
  assert (Z3 : forall y, vcross y y = vzero) by (intros y; destruct y; vec_unfold; f_equal; ring).
  assert (RI : forall x y, real x = real y -> x = y) by (intros [? ? ?] [? ? ?] E; unfold real in E; cbn in E; injection E as -> -> ->; reflexivity).
  assert (O : forall x, vscale (INR 1) x = x) by (intros x; cbn [INR]; apply vscale_1).
  unfold has_corner in H. unfold count_corner. cbn [filter].
  destruct (Z.eqb_spec (fst (fst f)) (Z.of_nat i)) as [A|A], (Z.eqb_spec (snd (fst f)) (Z.of_nat i)) as [B|B], (Z.eqb_spec (snd f) (Z.of_nat i)) as [D|D]; cbn [length];
    try discriminate H; try apply O.
  all: try (rewrite A in Ei; rewrite B in Ej; rewrite Ei in Ej; assert (Eq : real u = real v) by congruence; apply RI in Eq; subst v; rewrite Z1; apply vscale_0_r).
  all: try (rewrite A in Ei; rewrite D in Ek; rewrite Ei in Ek; assert (Eq : real u = real w) by congruence; apply RI in Eq; subst w; rewrite Z2; apply vscale_0_r).
  rewrite B in Ej; rewrite D in Ek; rewrite Ej in Ek; assert (Eq : real v = real w) by congruence; apply RI in Eq; subst w; rewrite Z3; apply vscale_0_r.
Qed.

Lemma as_real_some p u : as_real p = Some u -> p = real u.
Proof. destruct p as [[x|] [y|] [z|]]; cbn; try discriminate. intros E. injection E as <-. reflexivity. Qed.
Lemma as_real_real u : as_real (real u) = Some u.
Proof. destruct u. reflexivity. Qed.
Lemma raw_real u v w : raw_normal (real u) (real v) (real w) = real (vcross (vsub v u) (vsub w u)).
Proof. reflexivity. Qed.

(** ** The loop *)

Lemma vsum_app l1 l2 : vsum (l1 ++ l2) = vadd (vsum l1) (vsum l2).
Proof. induction l1 as [|a l IH]; cbn [app vsum fold_right]; [rewrite vadd_0_l; reflexivity|]. unfold vsum in IH. rewrite IH. apply vadd_assoc. Qed.
Lemma around_app verts l1 l2 i : around verts (l1 ++ l2) i = around verts l1 i ++ around verts l2 i.
Proof. unfold around. rewrite filter_app, flat_map_app. reflexivity. Qed.

Lemma loop_ok verts : forall faces done ns, length ns = length verts ->
  (forall i, (i < length verts)%nat -> (forall f, In f done -> has_corner f i = true -> ~ first_nan verts f) ->
     nth_error ns i = Some (real (vsum (around verts done i)))) ->
  exists ns', ofold (normals_face verts) faces ns = Ok ns' /\ length ns' = length verts /\
    forall i, (i < length verts)%nat -> (forall f, In f (done ++ faces) -> has_corner f i = true -> ~ first_nan verts f) ->
     nth_error ns' i = Some (real (vsum (around verts (done ++ faces) i))).
Proof.
  induction faces as [|f faces IH]; intros done ns L H; cbn [ofold].
  - exists ns. rewrite app_nil_r. auto.
  - assert (Step : exists n1, normals_face verts f ns = Ok n1 /\ length n1 = length verts /\
       forall i, (i < length verts)%nat -> (forall g, In g (done ++ [f]) -> has_corner g i = true -> ~ first_nan verts g) ->
         nth_error n1 i = Some (real (vsum (around verts (done ++ [f]) i)))).
    { assert (Keep : forall i, (i < length verts)%nat -> (forall g, In g (done ++ [f]) -> has_corner g i = true -> ~ first_nan verts g) ->
         (has_corner f i = true -> face_normal verts f = None) -> nth_error ns i = Some (real (vsum (around verts (done ++ [f]) i)))).
      { intros i Hi G Nn. rewrite H by (auto; intros g Hg; apply G, in_or_app; left; exact Hg).
        rewrite around_app. unfold around at 3. cbn [filter]. destruct (has_corner f i); cbn [flat_map]; [rewrite Nn by reflexivity; cbn [app]|]; rewrite app_nil_r; reflexivity. }
      destruct (corners verts f) as [[[a b] c]|] eqn:C.
      2: { exists ns. split; [apply face_out; exact C|]. split; [exact L|]. intros i Hi G. apply Keep; auto. intros _. unfold face_normal. rewrite C. reflexivity. }
      rewrite (face_in _ _ _ _ _ _ C L).
      destruct (is_nan (px (raw_normal a b c))) eqn:En.
      { exists ns. split; [reflexivity|]. split; [exact L|]. intros i Hi G. apply Keep; auto. intros _. unfold face_normal. rewrite C.
        destruct (as_real a) as [u|] eqn:Ua; [|reflexivity]. destruct (as_real b) as [v|] eqn:Ub; [|reflexivity]. destruct (as_real c) as [w|] eqn:Uc; [|reflexivity].
        apply as_real_some in Ua, Ub, Uc. subst. rewrite raw_real in En. discriminate En. }
      destruct (add_corners (raw_normal a b c) [fst (fst f); snd (fst f); snd f] ns) as (n1 & E1 & L1 & A1).
      { rewrite L. exact (corners_range _ _ _ _ _ C). }
      exists n1. split; [exact E1|]. split; [congruence|]. intros i Hi G. rewrite A1.
      assert (H0 : nth_error ns i = Some (real (vsum (around verts done i)))) by (apply H; auto; intros g Hg; apply G, in_or_app; left; exact Hg).
      destruct (has_corner f i) eqn:Hc.
      - assert (F : exists u v w, a = real u /\ b = real v /\ c = real w).
        { specialize (G f ltac:(apply in_or_app; right; left; reflexivity) Hc).
          destruct a as [[xa|] ya za], b as [[xb|] yb zb], c as [[xc|] yc zc];
            destruct ya as [ya|], yb as [yb|], yc as [yc|], za as [za|], zb as [zb|], zc as [zc|]; try discriminate En;
            try solve [exfalso; apply G; unfold first_nan, first_only; do 3 eexists; split; [exact C|]; cbn; repeat split; try discriminate; auto].
          exists (V3 xa ya za), (V3 xb yb zb), (V3 xc yc zc). auto. }
        destruct F as (u & v & w & -> & -> & ->). rewrite H0. cbn [option_map]. rewrite raw_real, times_real.
        rewrite (count_normal verts f _ _ _ u v w i C eq_refl eq_refl eq_refl Hc).
        rewrite around_app, vsum_app. unfold around at 3. cbn [filter]. rewrite Hc. cbn [flat_map]. unfold face_normal. rewrite C, !as_real_real.
        cbn [app vsum fold_right]. rewrite vadd_0_r. reflexivity.
      - rewrite (corner_count f i Hc). rewrite Keep by (auto; congruence). reflexivity. }
    destruct Step as (n1 & E1 & L1 & A1). rewrite E1. cbn [obind].
    destruct (IH (done ++ [f]) n1 L1 A1) as (n2 & E2 & L2 & A2). exists n2. rewrite <- app_assoc in A2. auto.
Qed.

(** ** Lengths *)

Lemma unit_real u : exists v, pt_unit (real u) = real v /\ direction u v.
Proof.
  unfold pt_unit, pt_length, real. cbn [px py pz lift2 option_map].
  set (n := vx u * vx u + vy u * vy u + vz u * vz u).
  assert (Hx := Rle_0_sqr (vx u)). assert (Hy := Rle_0_sqr (vy u)). assert (Hz := Rle_0_sqr (vz u)). unfold Rsqr in *.
  assert (Hn : 0 <= n) by (unfold n; lra).
  destruct (Reqb_spec (sqrt n) 0) as [E|E].
  - exists u. split; [reflexivity|]. left.
    assert (n = 0) by (apply sqrt_eq_0; assumption). unfold n in *.
    assert (u = vzero); [|auto]. destruct u as [a b c]. cbn in *. unfold vzero.
    assert (a * a = 0) by lra. assert (b * b = 0) by lra. assert (c * c = 0) by lra.
    f_equal; apply Rsqr_0_uniq; unfold Rsqr; assumption.
  - assert (P : 0 < sqrt n) by (pose proof (sqrt_pos n); lra).
    exists (V3 (vx u / sqrt n) (vy u / sqrt n) (vz u / sqrt n)). split; [reflexivity|]. right.
    split; [|split].
    + intros ->. apply E. unfold n. cbn. rewrite !Rmult_0_l, !Rplus_0_l. apply sqrt_0.
    + unfold vnorm2, vdot. cbn. transitivity (n / (sqrt n * sqrt n)); [unfold n; field; exact E|].
      rewrite sqrt_sqrt by exact Hn. field. intros Z. apply E. rewrite Z. apply sqrt_0.
    + exists (sqrt n). split; [exact P|]. destruct u as [a b c]. unfold vscale. cbn. f_equal; field; exact E.
Qed.

Lemma direction_unique u v w : direction u v -> direction u w -> v = w.
Proof.
  intros [[A B]|(A & B & c & Hc & C)] [[A' B']|(A' & B' & c' & Hc' & C')]; try congruence; try contradiction.
  assert (E : c * c = c' * c').
  { transitivity (vnorm2 u).
    - rewrite C. transitivity (c * c * vnorm2 v); [rewrite B; ring|]. destruct v. vec_unfold. ring.
    - rewrite C'. transitivity (c' * c' * vnorm2 w); [|rewrite B'; ring]. destruct w. vec_unfold. ring. }
  assert (c = c').
  { assert (Z : (c - c') * (c + c') = 0) by lra. apply Rmult_integral in Z. lra. }
  subst c'. rewrite C in C'. destruct v as [x y z], w as [x' y' z']. unfold vscale in C'. cbn in C'. injection C' as X Y Z.
  f_equal; eapply Rmult_eq_reg_l; eauto; lra.
Qed.
