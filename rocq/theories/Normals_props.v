(** C117: the normals of a mesh. *)

From Coq Require Import Reals List Arith ZArith Bool Lia Lra Permutation.
From Verif Require Import Prelude Loops Rbool R3 Normals_model Normals_spec Normals_proofs.
Import ListNotations.
Local Open Scope outcome_scope.
Local Open Scope R_scope.

(** For every mesh, whatever its indices: one normal per vertex, which is the direction of the sum of the normals of the faces
    around it, each as long as twice its area.  Faces with bad indices and faces with coordinates that are not numbers do not
    count, but for those whose first coordinates alone are not. *)
Theorem mesh_normals verts faces : exists ns, update_normals verts faces = Ok ns /\ length ns = length verts /\
  forall i, (i < length verts)%nat -> (forall f, In f faces -> has_corner f i = true -> ~ first_nan verts f) ->
    exists v, nth_error ns i = Some (real v) /\ direction (vsum (around verts faces i)) v.
Proof.
  destruct (loop_ok verts faces [] (repeat (Pt (Some 0) (Some 0) (Some 0)) (length verts))) as (ns & E & L & A).
  - apply repeat_length.
  - intros i Hi _. rewrite (nth_error_nth' _ (Pt (Some 0) (Some 0) (Some 0))) by (rewrite repeat_length; exact Hi). rewrite nth_repeat. reflexivity.
  - unfold update_normals. rewrite E. cbn [obind]. exists (map pt_unit ns). split; [reflexivity|]. split; [rewrite map_length; exact L|].
    intros i Hi H. specialize (A i Hi H). cbn [app] in A. destruct (unit_real (vsum (around verts faces i))) as (v & Ev & D).
    exists v. split; [|exact D]. rewrite nth_error_map, A. cbn [option_map]. rewrite Ev. reflexivity.
Qed.
Print Assumptions mesh_normals.

(** If all coordinates are numbers, so are all normals. *)
Theorem mesh_normals_numbers vs faces : exists ms, update_normals (map real vs) faces = Ok (map real ms) /\ length ms = length vs /\
  forall i m, nth_error ms i = Some m -> direction (vsum (around (map real vs) faces i)) m.
Proof.
  destruct (mesh_normals (map real vs) faces) as (ns & E & L & A). rewrite map_length in L, A.
  assert (V : forall k p, vertex (map real vs) k = Some p -> px p <> None).
  { intros k p H. apply vertex_some in H. destruct H as [_ H]. rewrite nth_error_map in H. destruct (nth_error vs _); [|discriminate H].
    injection H as <-. discriminate. }
  assert (N : forall f, ~ first_nan (map real vs) f).
  { intros f (a & b & c & C & _ & _ & _ & H). unfold corners in C.
    destruct (vertex (map real vs) (fst (fst f))) eqn:E1; [|discriminate]. destruct (vertex (map real vs) (snd (fst f))) eqn:E2; [|discriminate]. destruct (vertex (map real vs) (snd f)) eqn:E3; [|discriminate].
    injection C as -> -> ->. destruct H as [H|[H|H]]; revert H; eapply V; eassumption. }
  set (g := fun p => match as_real p with Some v => v | None => vzero end).
  assert (G : forall i m, nth_error (map g ns) i = Some m -> nth_error ns i = Some (real m) /\ direction (vsum (around (map real vs) faces i)) m).
  { intros i m H. rewrite nth_error_map in H. destruct (nth_error ns i) as [p|] eqn:Ep; [|discriminate H].
    assert (Hi : (i < length vs)%nat) by (rewrite <- L; apply nth_error_Some; congruence).
    destruct (A i Hi (fun f _ _ => N f)) as (v & Ev & D). rewrite Ep in Ev. injection Ev as ->.
    cbn [option_map] in H. unfold g in H. rewrite as_real_real in H. injection H as <-. auto. }
  exists (map g ns). split; [|split; [rewrite map_length; exact L|intros i m H; apply (G i m H)]].
  rewrite E. f_equal. rewrite map_map. rewrite <- (map_id ns) at 1. apply map_ext_in. intros p Hp.
  apply In_nth_error in Hp. destruct Hp as (i & Hi).
  destruct (G i (g p)) as [G1 _]; [rewrite nth_error_map, Hi; reflexivity|]. rewrite Hi in G1. injection G1 as G1. exact G1.
Qed.
Print Assumptions mesh_normals_numbers.

(** Two meshes whose sums around each vertex have the same direction, up to [g], have the same normals, up to [g]. *)
Lemma same_normals vs vs' faces faces' (g : vec3 -> vec3) ms : length vs' = length vs ->
  (forall i m, direction (vsum (around (map real vs) faces i)) m -> direction (vsum (around (map real vs') faces' i)) (g m)) ->
  update_normals (map real vs) faces = Ok (map real ms) -> update_normals (map real vs') faces' = Ok (map real (map g ms)).
Proof.
  intros L H E. destruct (mesh_normals_numbers vs faces) as (m1 & E1 & L1 & D1). destruct (mesh_normals_numbers vs' faces') as (m2 & E2 & L2 & D2).
  assert (RI : forall l l', map real l = map real l' -> l = l').
  { induction l as [|[x y z] l IH]; intros [|[x' y' z'] l'] R0; try discriminate R0; [reflexivity|]. cbn [map] in R0. unfold real at 1 3 in R0. cbn in R0.
    injection R0 as -> -> -> R0. f_equal. apply IH. exact R0. }
  rewrite E in E1. assert (ms = m1) by (apply RI; congruence). subst m1. rewrite E2. f_equal. f_equal.
  apply nth_ext with (d := vzero) (d' := vzero); [rewrite map_length; congruence|]. intros i Hi.
  assert (Hi1 : (i < length ms)%nat) by congruence.
  pose proof (nth_error_nth' m2 vzero Hi) as N2. pose proof (nth_error_nth' ms vzero Hi1) as N1.
  rewrite (nth_error_nth (map g ms) i vzero (x := g (nth i ms vzero))) by (rewrite nth_error_map, N1; reflexivity).
  eapply direction_unique; [apply D2; exact N2|]. apply H. apply D1. exact N1.
Qed.

(** The order of the faces does not matter. *)
Theorem mesh_normals_order vs faces faces' : Permutation faces faces' ->
  update_normals (map real vs) faces' = update_normals (map real vs) faces.
Proof.
  intros P. destruct (mesh_normals_numbers vs faces) as (ms & E & _ & _). rewrite E.
  rewrite <- (map_id ms) at 1. apply (same_normals vs vs faces faces' (fun x => x) ms eq_refl); [|exact E].
  intros i m D. replace (vsum (around (map real vs) faces' i)) with (vsum (around (map real vs) faces i)); [exact D|].
  clear - P. induction P as [|f l l' P IH|f g l|l1 l2 l3 P1 IH1 P2 IH2]; [reflexivity| | |congruence].
  - change (f :: l) with ([f] ++ l). change (f :: l') with ([f] ++ l'). rewrite !around_app, !vsum_app, IH. reflexivity.
  - change (g :: f :: l) with ([g] ++ ([f] ++ l)). change (f :: g :: l) with ([f] ++ ([g] ++ l)).
    rewrite !around_app, !vsum_app, !vadd_assoc. f_equal. apply vadd_comm.
Qed.
Print Assumptions mesh_normals_order.

(** A general change of faces. *)
Lemma around_map vs vs' (t : Z * Z * Z -> Z * Z * Z) (h : vec3 -> vec3) faces i :
  h vzero = vzero -> (forall a b, h (vadd a b) = vadd (h a) (h b)) ->
  (forall f, has_corner (t f) i = has_corner f i) ->
  (forall f, face_normal (map real vs') (t f) = option_map h (face_normal (map real vs) f)) ->
  vsum (around (map real vs') (map t faces) i) = h (vsum (around (map real vs) faces i)).
Proof.
  intros H0 Ha Hc Hn. induction faces as [|f l IH]; [cbn; symmetry; exact H0|].
  change (map t (f :: l)) with ([t f] ++ map t l). change (f :: l) with ([f] ++ l). rewrite !around_app, !vsum_app, IH, Ha. f_equal.
  unfold around. cbn [filter]. rewrite Hc. destruct (has_corner f i); [|cbn; symmetry; exact H0]. cbn [flat_map]. rewrite Hn.
  destruct (face_normal (map real vs) f) as [n|]; cbn [option_map app vsum fold_right]; [rewrite !vadd_0_r; reflexivity|symmetry; exact H0].
Qed.

(** Which corner of a face comes first does not matter... *)
Theorem mesh_normals_turned vs faces :
  update_normals (map real vs) (map (fun '(a, b, c) => (b, c, a)) faces) = update_normals (map real vs) faces.
Proof.
  destruct (mesh_normals_numbers vs faces) as (ms & E & _ & _). rewrite E. rewrite <- (map_id ms) at 1.
  apply (same_normals vs vs faces _ (fun x => x) ms eq_refl); [|exact E]. intros i m D.
  rewrite (around_map vs vs (fun '(a, b, c) => (b, c, a)) (fun x => x)); [exact D|reflexivity|reflexivity| |].
  - intros [[a b] c]. unfold has_corner. cbn [fst snd]. destruct (a =? _)%Z, (b =? _)%Z, (c =? _)%Z; reflexivity.
  - intros [[a b] c]. unfold face_normal, corners. cbn [fst snd].
    destruct (vertex (map real vs) a) as [pa|], (vertex (map real vs) b) as [pb|], (vertex (map real vs) c) as [pc|]; try reflexivity.
    destruct (as_real pa) as [u|], (as_real pb) as [v|], (as_real pc) as [w|]; try reflexivity. cbn [option_map]. f_equal.
    destruct u, v, w. vec_unfold. f_equal; ring.
Qed.
Print Assumptions mesh_normals_turned.

(** ...and faces the other way round have the opposite normals. *)
Theorem mesh_normals_flipped vs faces ms :
  update_normals (map real vs) faces = Ok (map real ms) ->
  update_normals (map real vs) (map (fun '(a, b, c) => (a, c, b)) faces) = Ok (map real (map (vscale (-1)) ms)).
Proof.
  apply same_normals; [reflexivity|]. intros i m D.
  rewrite (around_map vs vs (fun '(a, b, c) => (a, c, b)) (vscale (-1))).
  - destruct D as [[-> ->]|(N & U & c & Hc & E)].
    + left. rewrite vscale_0_r. auto.
    + right. split; [|split].
      * intros Z. apply N. rewrite E in *. transitivity (vscale (-1) (vscale (-1) (vscale c m))); [|rewrite Z; apply vscale_0_r].
        destruct m. vec_unfold. f_equal; ring.
      * rewrite <- U. destruct m. vec_unfold. ring.
      * exists c. split; [exact Hc|]. rewrite E. destruct m. vec_unfold. f_equal; ring.
  - apply vscale_0_r.
  - apply vscale_add.
  - intros [[a b] c]. unfold has_corner. cbn [fst snd]. destruct (a =? _)%Z, (b =? _)%Z, (c =? _)%Z; reflexivity.
  - intros [[a b] c]. unfold face_normal, corners. cbn [fst snd].
    destruct (vertex (map real vs) a) as [pa|], (vertex (map real vs) b) as [pb|], (vertex (map real vs) c) as [pc|]; try reflexivity.
    destruct (as_real pa) as [u|], (as_real pb) as [v|], (as_real pc) as [w|]; try reflexivity. cbn [option_map]. f_equal.
    destruct u, v, w. vec_unfold. f_equal; ring.
Qed.
Print Assumptions mesh_normals_flipped.

(** Normals turn with the mesh, whatever it is moved and scaled by. *)
Theorem mesh_normals_moved vs faces ms q t s : qunit q -> 0 < s ->
  update_normals (map real vs) faces = Ok (map real ms) ->
  update_normals (map real (map (fun x => vadd (vscale s (qrot q x)) t) vs)) faces = Ok (map real (map (qrot q) ms)).
Proof.
  intros Hq Hs. rewrite <- (map_id faces) at 2. apply same_normals; [apply map_length|]. intros i m D.
  set (g := fun x => vadd (vscale s (qrot q x)) t).
  assert (Hn0 : forall x, vnorm2 (qrot q x) = vnorm2 x) by (intros x; apply qrot_dot; exact Hq).
  assert (Ss : 0 < s * s) by (apply Rmult_lt_0_compat; exact Hs).
  rewrite (around_map vs (map g vs) (fun f => f) (fun n => vscale (s * s) (qrot q n))).
  - destruct D as [[-> ->]|(N & U & c & Hc & E)].
    + left. rewrite qrot_zero, vscale_0_r. auto.
    + right. split; [|split].
      * intros Z. apply N. set (u := vsum _) in *.
        assert (Zu : vnorm2 u = 0).
        { rewrite <- (Hn0 u). apply (Rmult_eq_reg_l (s * s * (s * s))); [|pose proof (Rmult_lt_0_compat _ _ Ss Ss); lra].
          transitivity (vnorm2 (vscale (s * s) (qrot q u))); [destruct (qrot q u); vec_unfold; ring|rewrite Z; vec_unfold; ring]. }
        clearbody u. destruct u as [a b d]. unfold vnorm2, vdot in Zu. cbn in Zu. unfold vzero.
        pose proof (Rle_0_sqr a) as A1. pose proof (Rle_0_sqr b) as A2. pose proof (Rle_0_sqr d) as A3. unfold Rsqr in *.
        f_equal; apply Rsqr_0_uniq; unfold Rsqr; lra.
      * rewrite Hn0. exact U.
      * exists (s * s * c). split; [apply Rmult_lt_0_compat; assumption|]. rewrite E, qrot_scale, vscale_scale. reflexivity.
  - rewrite qrot_zero, vscale_0_r. reflexivity.
  - intros a b. rewrite qrot_add, vscale_add. reflexivity.
  - reflexivity.
  - intros f. unfold face_normal, corners.
    assert (V : forall k, vertex (map real (map g vs)) k = option_map (fun p => match as_real p with Some x => real (g x) | None => p end) (vertex (map real vs) k)).
    { intros k. unfold vertex. destruct (k <? 0)%Z; [reflexivity|]. rewrite !nth_error_map. destruct (nth_error vs _); cbn [option_map]; [rewrite as_real_real|]; reflexivity. }
    rewrite !V. destruct (vertex (map real vs) (fst (fst f))) as [pa|], (vertex (map real vs) (snd (fst f))) as [pb|], (vertex (map real vs) (snd f)) as [pc|]; try reflexivity. cbn [option_map].
    destruct (as_real pa) as [u|] eqn:Eu; rewrite ?as_real_real, ?Eu; [|reflexivity].
    destruct (as_real pb) as [v|] eqn:Ev; rewrite ?as_real_real, ?Ev; [|reflexivity].
    destruct (as_real pc) as [w|] eqn:Ew; rewrite ?as_real_real, ?Ew; [|reflexivity]. cbn [option_map]. f_equal.
    assert (Sub : forall x y, vsub (g x) (g y) = vscale s (qrot q (vsub x y))).
    { intros x y. unfold g. rewrite qrot_sub. destruct (qrot q x), (qrot q y), t. vec_unfold. f_equal; ring. }
    rewrite !Sub, qrot_cross by exact Hq. destruct (qrot q (vsub v u)), (qrot q (vsub w u)). vec_unfold. f_equal; ring.
Qed.
Print Assumptions mesh_normals_moved.

(** A vertex in a plane with normal [n], with faces that look along [n] and at least one with an area, has the normal [n]. *)
Theorem mesh_normals_flat vs faces ms i m n : update_normals (map real vs) faces = Ok (map real ms) -> nth_error ms i = Some m ->
  vnorm2 n = 1 -> (forall u, In u (around (map real vs) faces i) -> exists c, 0 <= c /\ u = vscale c n) ->
  (exists u, In u (around (map real vs) faces i) /\ u <> vzero) -> m = n.
Proof.
  intros E Em Un Al Ex. destruct (mesh_normals_numbers vs faces) as (m1 & E1 & L1 & D1).
  assert (Rm : nth_error (map real m1) i = Some (real m)).
  { rewrite E in E1. replace (map real m1) with (map real ms) by congruence. rewrite nth_error_map, Em. reflexivity. }
  rewrite nth_error_map in Rm. destruct (nth_error m1 i) as [m'|] eqn:Em'; [|discriminate Rm]. cbn [option_map] in Rm.
  assert (m' = m). { destruct m', m. unfold real in Rm. cbn in Rm. injection Rm as -> -> ->. reflexivity. } subst m'.
  eapply direction_unique; [exact (D1 i m Em')|].
  assert (S0 : forall l, (forall u, In u l -> exists c, 0 <= c /\ u = vscale c n) ->
     exists c, 0 <= c /\ vsum l = vscale c n /\ ((exists u, In u l /\ u <> vzero) -> 0 < c)).
  { induction l as [|u l IH]; intros H.
    - exists 0. split; [lra|]. split; [symmetry; apply vscale_0_l|]. intros (u & [] & _).
    - destruct IH as (c & Hc & Ec & Pc); [intros x Hx; apply H; right; exact Hx|].
      destruct (H u (or_introl eq_refl)) as (k & Hk & Ek). exists (k + c). split; [lra|].
      split; [change (vsum (u :: l)) with (vadd u (vsum l)); rewrite Ek, Ec; destruct n; vec_unfold; f_equal; ring|].
      intros (x & [<-|Hx] & Nx).
      + destruct (Req_dec k 0) as [->|]; [|lra]. destruct Nx. rewrite Ek. apply vscale_0_l.
      + assert (0 < c) by (apply Pc; exists x; auto). lra. }
  destruct (S0 _ Al) as (c & Hc & Ec & Pc). specialize (Pc Ex). right. split; [|split; [exact Un|exists c; auto]].
  rewrite Ec. intros Z. assert (c * c * vnorm2 n = 0); [|rewrite Un in *; pose proof (Rmult_lt_0_compat _ _ Pc Pc); lra].
  transitivity (vnorm2 (vscale c n)); [destruct n; vec_unfold; ring|rewrite Z; vec_unfold; ring].
Qed.
Print Assumptions mesh_normals_flat.

(** A coordinate that is not a number spoils the normals of other vertices, if it is the first one: only the first coordinate of the
    normal of a face is tested, and it does not depend on the first coordinates of the corners. *)
Theorem mesh_normals_first_coordinate_refuted :
  exists verts faces i ns, (exists v, nth_error verts i = Some (real v)) /\ around verts faces i <> [] /\
    update_normals verts faces = Ok ns /\ nth_error ns i = Some (Pt None None None).
Proof.
  exists [real (V3 0 0 0); real (V3 1 0 0); real (V3 0 1 0); Pt None (Some 0) (Some 1)], [(0, 1, 2)%Z; (0, 1, 3)%Z], 0%nat.
  eexists. split; [eexists; reflexivity|]. split; [discriminate|]. split; [reflexivity|]. reflexivity.
Qed.
Print Assumptions mesh_normals_first_coordinate_refuted.

(** The normal is not the average of the normals of the faces: large faces count more. *)
Theorem mesh_normals_average_refuted :
  exists vs faces ms i m ds, update_normals (map real vs) faces = Ok (map real ms) /\ nth_error ms i = Some m /\
    Forall2 direction (around (map real vs) faces i) ds /\ vsum ds <> vzero /\ ~ direction (vsum ds) m.
Proof.
  set (vs := [V3 0 0 0; V3 1 0 0; V3 0 1 0; V3 0 0 3]). set (faces := [(0, 1, 2)%Z; (0, 1, 3)%Z]).
  destruct (mesh_normals_numbers vs faces) as (ms & E & L & D).
  destruct ms as [|m ms]; [discriminate L|]. exists vs, faces, (m :: ms), 0%nat, m, [V3 0 0 1; V3 0 (-1) 0].
  split; [exact E|]. split; [reflexivity|].
  assert (A : around (map real vs) faces 0 = [V3 0 0 1; V3 0 (-3) 0]).
  { unfold around, faces. cbn. apply (f_equal2 cons); [|apply (f_equal2 cons); [|reflexivity]]; vec_unfold; f_equal; ring. }
  specialize (D 0%nat m eq_refl). rewrite A in *.
  assert (S1 : vsum [V3 0 0 1; V3 0 (-3) 0] = V3 0 (-3) 1) by (cbn; vec_unfold; f_equal; ring).
  assert (S2 : vsum [V3 0 0 1; V3 0 (-1) 0] = V3 0 (-1) 1) by (cbn; vec_unfold; f_equal; ring).
  rewrite S1 in D. rewrite S2.
  assert (N : forall x y z, z <> 0 -> V3 x y z <> vzero) by (intros x y z Hz H; apply Hz; unfold vzero in H; injection H as _ _ H; exact H).
  split; [|split; [apply N; lra|]].
  - constructor; [|constructor; [|constructor]].
    + right. split; [apply N; lra|]. split; [vec_unfold; ring|]. exists 1. split; [lra|]. symmetry. apply vscale_1.
    + right. split; [intros H; unfold vzero in H; injection H as H; lra|]. split; [vec_unfold; ring|]. exists 3. split; [lra|]. unfold vscale. cbn. f_equal; ring.
  - intros D2. destruct D as [[Z _]|(_ & _ & c & Hc & Ec)]; [exact (N 0 (-3) 1 ltac:(lra) Z)|].
    destruct D2 as [[Z _]|(_ & _ & k & Hk & Ek)]; [exact (N 0 (-1) 1 ltac:(lra) Z)|].
    destruct m as [x y z]. unfold vscale in Ec, Ek. cbn in Ec, Ek. injection Ec as _ Ey Ez. injection Ek as _ Ky Kz.
    assert (P : k * y + k * z = 0) by lra. assert (Q : k * (y + z) = 0) by lra. apply Rmult_integral in Q. destruct Q as [Q|Q]; [lra|].
    assert (y = - z) by lra. subst y. lra.
Qed.
Print Assumptions mesh_normals_average_refuted.

(** A square of two triangles, with a face that has bad indices and one without area; the normals are those of its plane, and a fifth
    vertex without faces has none. *)
Example mesh_normals_case :
  exists ms, update_normals (map real [V3 0 0 0; V3 2 0 0; V3 2 2 0; V3 0 2 0; V3 5 5 5]) [(0, 1, 2); (-1, 2, 7); (3, 3, 1); (2, 3, 0)]%Z = Ok (map real ms) /\
    nth_error ms 0 = Some (V3 0 0 1) /\ nth_error ms 3 = Some (V3 0 0 1) /\ nth_error ms 4 = Some vzero.
Proof.
  set (vs := [V3 0 0 0; V3 2 0 0; V3 2 2 0; V3 0 2 0; V3 5 5 5]). set (faces := [(0, 1, 2); (-1, 2, 7); (3, 3, 1); (2, 3, 0)]%Z).
  destruct (mesh_normals_numbers vs faces) as (ms & E & L & D). exists ms. split; [exact E|].
  destruct ms as [|m0 [|m1 [|m2 [|m3 [|m4 [|]]]]]]; try discriminate L. cbn [nth_error].
  assert (A0 : around (map real vs) faces 0 = [vscale 4 (V3 0 0 1); vscale 4 (V3 0 0 1)]).
  { unfold around, faces. cbn. apply (f_equal2 cons); [|apply (f_equal2 cons); [|reflexivity]]; vec_unfold; f_equal; ring. }
  assert (A3 : around (map real vs) faces 3 = [vscale 0 (V3 0 0 1); vscale 4 (V3 0 0 1)]).
  { unfold around, faces. cbn. apply (f_equal2 cons); [|apply (f_equal2 cons); [|reflexivity]]; vec_unfold; f_equal; ring. }
  split; [|split].
  - f_equal. apply (mesh_normals_flat vs faces _ 0 m0 (V3 0 0 1) E eq_refl); [vec_unfold; ring| |]; rewrite A0.
    + intros u [<- | [<- | []]]; exists 4; split; (lra || reflexivity).
    + exists (vscale 4 (V3 0 0 1)). split; [left; reflexivity|]. unfold vscale, vzero. cbn. intros H. injection H as H. lra.
  - f_equal. apply (mesh_normals_flat vs faces _ 3 m3 (V3 0 0 1) E eq_refl); [vec_unfold; ring| |]; rewrite A3.
    + intros u [<- | [<- | []]]; [exists 0|exists 4]; split; (lra || reflexivity).
    + exists (vscale 4 (V3 0 0 1)). split; [right; left; reflexivity|]. unfold vscale, vzero. cbn. intros H. injection H as H. lra.
  - f_equal. destruct (D 4%nat m4 eq_refl) as [[_ Z]|(N & _)]; [exact Z|]. destruct N. reflexivity.
Qed.
(** A motion that is one. *)
Example mesh_normals_moved_case : qunit (Q4 (3 / 5) 0 0 (4 / 5)) /\ 0 < 7.
Proof. split; [unfold qunit; vec_unfold; field|lra]. Qed.
