(** C81-C83: rays and triangles, and the queries of triangle meshes. *)

From Coq Require Import List Arith ZArith NArith QArith Bool Lia Lqa Psatz Setoid Permutation.
From Verif Require Import Prelude Loops Box_model Box_spec Box_proofs Box_props Bvh_model Bvh_spec Bvh_build_proofs Bvh_walk_proofs Bvh_props
  Bvh_pair_model Bvh_pair_spec Bvh_pair_props Tri_model Tri_spec Tri_proofs Tri_props Mesh_spec.
Import ListNotations.
Local Open Scope outcome_scope.
Local Open Scope Q_scope.

(** ** C81: a ray and a triangle *)

Lemma sq_pos q : 0 <= q * q. Proof. nra. Qed.
Lemma sq_zero q : q * q == 0 -> q == 0. Proof. intros H. destruct (Qmult_integral _ _ H); assumption. Qed.

Lemma det_nonzero eps n e det : 0 < eps -> eps * eps <= n -> 0 < e -> eps * eps * (e * n) <= det * det -> ~ det == 0.
Proof.
  intros P H K L Z. rewrite Z in L. assert (X : 0 < eps * eps) by nra. assert (Y : 0 < e * n) by nra. assert (W : 0 < eps * eps * (e * n)) by nra. lra.
Qed.

(** A reported hit is a point of the ray and of the plane of the triangle, with the reported
    barycentric coordinates, which are at most [eps] outside the triangle. *)
Theorem ray_triangle_sound eps o d a b c h : 0 < eps -> ray_triangle eps o d a b c = Some h ->
  same (h_point h) (ray_point o d (h_t h)) /\
  same (h_point h) (combine3 a b c (1 - h_u h - h_v h) (h_u h) (h_v h)) /\
  - eps <= h_u h /\ - eps <= h_v h /\ - eps <= 1 - h_u h - h_v h.
Proof.
  intros P. unfold ray_triangle. cbv zeta.
  set (n := cross3 d (sub3 c a)). set (e := sub3 b a).
  destruct (Qltb_spec (dot3 n n) (eps * eps)) as [|N1]; [discriminate|].
  destruct (Qleb_spec (dot3 e e) 0) as [|N2]; [discriminate|]. cbn [orb].
  destruct (Qltb_spec (dot3 e n * dot3 e n) (eps * eps * (dot3 e e * dot3 n n))) as [|N3]; [discriminate|].
  assert (ND : ~ dot3 e n == 0) by (apply (det_nonzero eps (dot3 n n) (dot3 e e)); lra).
  set (u := dot3 (sub3 o a) n * (1 / dot3 e n)).
  destruct (Qltb_spec u (- eps)) as [|U1]; [discriminate|]. destruct (Qltb_spec (1 + eps) u) as [|U2]; [discriminate|]. cbn [orb].
  set (v := dot3 d (cross3 (sub3 o a) e) * (1 / dot3 e n)).
  destruct (Qltb_spec v (- eps)) as [|V1]; [discriminate|]. destruct (Qltb_spec (1 + eps) (u + v)) as [|V2]; [discriminate|]. cbn [orb].
  intros E. apply (f_equal (fun x => match x with Some y => y | None => h end)) in E. subst h. cbn [h_u h_v h_t h_point].
  split; [intros []; cbn; ring|]. split; [|lra].
  intros []; unfold u, v, combine3; cbn [make3 at3 add3 scale3 qx qy qz]; unfold n, e, dot3, cross3, sub3 in *; cbn [qx qy qz] in *; field; exact ND.
Qed.
Print Assumptions ray_triangle_sound.

(** A ray that crosses the triangle and is clearly not parallel to it is reported, with the parameter
    and the barycentric coordinates of the crossing point. *)
Theorem ray_triangle_complete eps o d a b c u v w t : 0 < eps -> steep eps d a b c ->
  0 <= u -> 0 <= v -> 0 <= w -> u + v + w == 1 -> same (ray_point o d t) (combine3 a b c u v w) ->
  exists h, ray_triangle eps o d a b c = Some h /\ h_t h == t /\ h_u h == v /\ h_v h == w.
Proof.
  intros P (S1 & S2 & S3) U V W Sm E. unfold ray_triangle. cbv zeta.
  set (n := cross3 d (sub3 c a)) in *. set (e := sub3 b a) in *.
  change (inner (cross d (minus c a)) (cross d (minus c a))) with (dot3 n n) in *.
  change (inner (minus b a) (minus b a)) with (dot3 e e) in *.
  change (inner (minus b a) (cross d (minus c a))) with (dot3 e n) in *.
  destruct (Qltb_spec (dot3 n n) (eps * eps)) as [|N1]; [lra|].
  destruct (Qleb_spec (dot3 e e) 0) as [|N2]; [lra|]. cbn [orb].
  destruct (Qltb_spec (dot3 e n * dot3 e n) (eps * eps * (dot3 e e * dot3 n n))) as [|N3]; [lra|].
  assert (ND : ~ dot3 e n == 0) by (apply (det_nonzero eps (dot3 n n) (dot3 e e)); lra).
  apply same_at in E. unfold ray_point, combine3 in E. cbn in E. destruct E as (E1 & E2 & E3).
  assert (Eu : u == 1 - v - w) by lra.
  assert (O1 : qx o - qx a == v * (qx b - qx a) + w * (qx c - qx a) - t * qx d) by (setoid_replace (qx o) with (qx o + t * qx d - t * qx d) by ring; rewrite E1, Eu; ring).
  assert (O2 : qy o - qy a == v * (qy b - qy a) + w * (qy c - qy a) - t * qy d) by (setoid_replace (qy o) with (qy o + t * qy d - t * qy d) by ring; rewrite E2, Eu; ring).
  assert (O3 : qz o - qz a == v * (qz b - qz a) + w * (qz c - qz a) - t * qz d) by (setoid_replace (qz o) with (qz o + t * qz d - t * qz d) by ring; rewrite E3, Eu; ring).
  assert (Xu : dot3 (sub3 o a) n * (1 / dot3 e n) == v).
  { setoid_replace (dot3 (sub3 o a) n) with (v * dot3 e n); [field; exact ND|].
    unfold n, e, dot3, cross3, sub3. cbn. rewrite O1, O2, O3. ring. }
  assert (Xv : dot3 d (cross3 (sub3 o a) e) * (1 / dot3 e n) == w).
  { setoid_replace (dot3 d (cross3 (sub3 o a) e)) with (w * dot3 e n); [field; exact ND|].
    unfold n, e, dot3, cross3, sub3. cbn. rewrite O1, O2, O3. ring. }
  assert (Xt : dot3 (sub3 c a) (cross3 (sub3 o a) e) * (1 / dot3 e n) == t).
  { setoid_replace (dot3 (sub3 c a) (cross3 (sub3 o a) e)) with (t * dot3 e n); [field; exact ND|].
    unfold n, e, dot3, cross3, sub3. cbn. rewrite O1, O2, O3. ring. }
  set (fu := dot3 (sub3 o a) n * (1 / dot3 e n)) in *. set (fv := dot3 d (cross3 (sub3 o a) e) * (1 / dot3 e n)) in *.
  set (ft := dot3 (sub3 c a) (cross3 (sub3 o a) e) * (1 / dot3 e n)) in *.
  destruct (Qltb_spec fu (- eps)) as [|U1]; [lra|]. destruct (Qltb_spec (1 + eps) fu) as [|U2]; [lra|]. cbn [orb].
  destruct (Qltb_spec fv (- eps)) as [|V1]; [lra|]. destruct (Qltb_spec (1 + eps) (fu + fv)) as [|V2]; [lra|]. cbn [orb].
  eexists. split; [reflexivity|]. cbn. auto.
Qed.
Print Assumptions ray_triangle_complete.

Example ray_triangle_case : steep (1 # 1000000) (Q3 1 2 (-5)) ta tb tc /\
  same (ray_point (Q3 1 (-1) 5) (Q3 1 2 (-5)) 1) (combine3 ta tb tc (1 # 4) (5 # 12) (1 # 3)).
Proof. split; [unfold steep; cbv zeta; repeat split; vm_compute; try reflexivity; discriminate|intros []; vm_compute; reflexivity]. Qed.
Example ray_triangle_hit : exists h, ray_triangle (1 # 1000000) (Q3 1 (-1) 5) (Q3 1 2 (-5)) ta tb tc = Some h /\ h_t h == 1 /\
  same (h_point h) (Q3 2 1 0).
Proof. eexists. split; [vm_compute; reflexivity|]. split; [vm_compute; reflexivity|intros []; vm_compute; reflexivity]. Qed.

(** The margin is absolute: a small triangle is never hit, however the ray goes through it. *)
Theorem ray_triangle_refuted eps : 0 < eps -> eps <= 1 -> exists o d a b c,
  crosses o d a b c 1 /\ ~ on_line a b c /\ inner d (minus b a) == 0 /\ inner d (minus c a) == 0 /\ inner d d == 1 /\
  ray_triangle eps o d a b c = None.
Proof.
  intros P L. exists (Q3 0 0 1), (Q3 0 0 (-1)), (Q3 0 0 0), (Q3 (eps / 2) 0 0), (Q3 0 (eps / 2) 0).
  assert (H : eps / 2 == (1 # 2) * eps) by field.
  split; [exists 1, 0, 0; repeat split; try lra; intros []; vm_compute; reflexivity|].
  split. { rewrite on_line_iff. unfold dot3, sub3. cbn [qx qy qz]. rewrite H. intros K.
    assert (Z : eps * eps * eps * eps == 0) by lra. assert (0 < eps * eps) by nra. assert (0 < eps * eps * eps) by nra. nra. }
  split; [unfold inner, minus; cbn [make3 at3 qx qy qz]; ring|]. split; [unfold inner, minus; cbn [make3 at3 qx qy qz]; ring|]. split; [reflexivity|].
  unfold ray_triangle. cbv zeta. destruct (Qltb_spec (dot3 (cross3 (Q3 0 0 (-1)) (sub3 (Q3 0 (eps / 2) 0) (Q3 0 0 0))) (cross3 (Q3 0 0 (-1)) (sub3 (Q3 0 (eps / 2) 0) (Q3 0 0 0)))) (eps * eps)) as [X|X]; [reflexivity|].
  exfalso. apply X. unfold dot3, cross3, sub3. cbn [qx qy qz]. rewrite H. nra.
Qed.
Print Assumptions ray_triangle_refuted.

(** ** Meshes *)

Definition thickness_ok (thick : option Q) : Prop := match thick with Some e => 0 <= e | None => True end.

Lemma corners_iff pos ia ib ic a b c : corners pos (ia, ib, ic) = Ok (a, b, c) <->
  nth_error pos ia = Some a /\ nth_error pos ib = Some b /\ nth_error pos ic = Some c.
Proof.
  unfold corners. split.
  - destruct (nth_error pos ia), (nth_error pos ib), (nth_error pos ic); intros H; try discriminate. inversion H. auto.
  - intros (-> & -> & ->). reflexivity.
Qed.

Lemma qmin_bounds a b c u v w : 0 <= u -> 0 <= v -> 0 <= w -> u + v + w == 1 -> qmin a (qmin b c) <= u * a + v * b + w * c.
Proof.
  intros U V W E. set (m := qmin a (qmin b c)).
  assert (A : m <= a /\ m <= b /\ m <= c).
  { unfold m. destruct (qmin_cases b c) as [(-> & ?)|(-> & ?)].
    - destruct (qmin_cases a b) as [(-> & ?)|(-> & ?)]; lra.
    - destruct (qmin_cases a c) as [(-> & ?)|(-> & ?)]; lra. }
  clearbody m. destruct A as (A1 & A2 & A3).
  setoid_replace m with (u * m + v * m + w * m); [nra|]. setoid_replace (u * m + v * m + w * m) with ((u + v + w) * m) by ring. rewrite E. ring.
Qed.
Lemma qmax_bounds a b c u v w : 0 <= u -> 0 <= v -> 0 <= w -> u + v + w == 1 -> u * a + v * b + w * c <= qmax a (qmax b c).
Proof.
  intros U V W E. set (m := qmax a (qmax b c)).
  assert (A : a <= m /\ b <= m /\ c <= m).
  { unfold m. destruct (qmax_cases b c) as [(-> & ?)|(-> & ?)].
    - destruct (qmax_cases a b) as [(-> & ?)|(-> & ?)]; lra.
    - destruct (qmax_cases a c) as [(-> & ?)|(-> & ?)]; lra. }
  clearbody m. destruct A as (A1 & A2 & A3).
  setoid_replace m with (u * m + v * m + w * m); [nra|]. setoid_replace (u * m + v * m + w * m) with ((u + v + w) * m) by ring. rewrite E. ring.
Qed.

Lemma corner_in_triangle a b c : in_triangle a b c a.
Proof. exists 1, 0, 0. repeat split; try lra. intros d. unfold combine3. rewrite at_make. ring. Qed.
Lemma box_proper_of a b c x bx : in_triangle a b c x -> (forall y, in_triangle a b c y -> in_box y bx) -> proper bx.
Proof. intros I H d. specialize (H x I d). lra. Qed.

Lemma face_box_covers pos thick id f bx : face_box pos thick id f = Ok bx -> thickness_ok thick ->
  exists a b c, corners pos f = Ok (a, b, c) /\ bid bx = id /\ (forall x, in_triangle a b c x -> in_box x bx).
Proof.
  unfold face_box. destruct (corners pos f) as [((a & b) & c)| | | |]; cbn [obind]; try discriminate.
  intros E T. apply (f_equal (fun o => match o with Ok x => x | _ => bx end)) in E. subst bx. exists a, b, c. split; [reflexivity|].
  split; [destruct thick; reflexivity|]. intros x (u & v & w & U & V & W & Sm & Ex) d. rewrite (Ex d). unfold combine3. rewrite at_make.
  pose proof (qmin_bounds (at3 a d) (at3 b d) (at3 c d) u v w U V W Sm) as L.
  pose proof (qmax_bounds (at3 a d) (at3 b d) (at3 c d) u v w U V W Sm) as H.
  destruct thick as [e|]; cbn [thickness_ok] in T; unfold tri_box, tri_box_adaptive; cbn [lo hi]; rewrite !at_make; lra.
Qed.

Lemma face_boxes_ok pos thick : thickness_ok thick -> forall fs k bs, face_boxes pos thick k fs = Ok bs ->
  map bid bs = seq k (length fs) /\
  forall bx, In bx bs -> exists j a b c, bid bx = (k + j)%nat /\ mesh_face pos fs j a b c /\ (forall x, in_triangle a b c x -> in_box x bx).
Proof.
  intros T. induction fs as [|f fs IH]; intros k bs E; cbn [face_boxes] in E.
  - apply (f_equal (fun o => match o with Ok x => x | _ => [] end)) in E. subst bs. split; [reflexivity|]. intros bx [].
  - destruct (face_box pos thick k f) as [b0| | | |] eqn:E0; cbn [obind] in E; try discriminate.
    destruct (face_boxes pos thick (S k) fs) as [bs'| | | |] eqn:E1; cbn [obind] in E; try discriminate.
    apply (f_equal (fun o => match o with Ok x => x | _ => [] end)) in E. subst bs.
    destruct (face_box_covers pos thick k f b0 E0 T) as (a & b & c & Ec & Eb & Cov). destruct (IH (S k) bs' E1) as (M & H).
    split; [cbn [map length seq]; rewrite M, Eb; reflexivity|].
    intros bx [<-|I].
    + destruct f as ((ia & ib) & ic). apply corners_iff in Ec. exists 0%nat, a, b, c. split; [lia|]. split; [|exact Cov].
      exists ia, ib, ic. split; [reflexivity|exact Ec].
    + destruct (H bx I) as (j & a' & b' & c' & Ej & Hj & Cj). exists (S j), a', b', c'. split; [lia|]. split; [|exact Cj].
      destruct Hj as (ia & ib & ic & X). exists ia, ib, ic. exact X.
Qed.

Lemma face_of m i a b c : mesh_face (m_pos m) (m_tri m) i a b c -> face m i = (a, b, c).
Proof. intros (ia & ib & ic & E & H). unfold face. rewrite E. apply corners_iff in H. rewrite H. reflexivity. Qed.
Lemma face_unique pos fs i a b c a' b' c' : mesh_face pos fs i a b c -> mesh_face pos fs i a' b' c' -> a = a' /\ b = b' /\ c = c'.
Proof.
  intros (ia & ib & ic & E & H1 & H2 & H3) (ja & jb & jc & F & K1 & K2 & K3). rewrite E in F. inversion F. subst. 
  rewrite H1 in K1. rewrite H2 in K2. rewrite H3 in K3. inversion K1. inversion K2. inversion K3. auto.
Qed.

(** What construction leaves. *)
Lemma mesh_inv cap pos fs thick m : (1 <= cap)%nat -> fs <> [] -> small (2 * length fs) -> thickness_ok thick ->
  tri_bvh_make cap pos fs thick = Ok m -> m_pos m = pos /\ m_tri m = fs /\ exists tr, hierarchy tight cap (m_bvh m) tr /\
    Permutation (map bid (t_prims (m_bvh m))) (seq 0 (length fs)) /\
    (forall bx, In bx (t_prims (m_bvh m)) -> exists a b c, mesh_face pos fs (bid bx) a b c /\ (forall x, in_triangle a b c x -> in_box x bx)).
Proof.
  intros C N Sm T E. unfold tri_bvh_make in E.
  destruct (face_boxes pos thick 0 fs) as [bs| | | |] eqn:Eb; cbn [obind] in E; try discriminate.
  destruct (build cap bs) as [t| | | |] eqn:Et; cbn [obind] in E; try discriminate.
  apply (f_equal (fun o => match o with Ok x => x | _ => m end)) in E. subst m. cbn [m_pos m_tri m_bvh]. split; [reflexivity|]. split; [reflexivity|].
  destruct (face_boxes_ok pos thick T fs 0 bs Eb) as (M & H).
  assert (L : length bs = length fs) by (rewrite <- (map_length bid), M; apply seq_length).
  destruct (build_inv cap bs t C) as (tr & P & Hi).
  { intros ->. destruct fs; [congruence|discriminate]. } { unfold countable. rewrite L. exact Sm. } { exact Et. }
  exists tr. split; [exact Hi|]. split; [rewrite <- M; apply Permutation_map, Permutation_sym, P|].
  intros bx I. apply (Permutation_in _ (Permutation_sym P)) in I. destruct (H bx I) as (j & a & b & c & Ej & Hj & Cj).
  rewrite Ej. cbn [Nat.add]. exists a, b, c. auto.
Qed.

Lemma mesh_boxes (fs : list tri) m tr cap : hierarchy tight cap (m_bvh m) tr -> Permutation (map bid (t_prims (m_bvh m))) (seq 0 (length fs)) ->
  forall i, (i < length fs)%nat -> exists bx, In bx (t_prims (m_bvh m)) /\ bid bx = i.
Proof.
  intros _ P i L. assert (I : In i (map bid (t_prims (m_bvh m)))) by (eapply Permutation_in; [apply Permutation_sym; exact P|]; apply in_seq; lia).
  apply in_map_iff in I. destruct I as (bx & E & I). exists bx. auto.
Qed.
Lemma mesh_face_lt pos fs i a b c : mesh_face pos fs i a b c -> (i < length fs)%nat.
Proof. intros (ia & ib & ic & E & _). apply nth_error_Some. congruence. Qed.

(** C82. Construction succeeds when all indices are valid, except that more than 128 faces may
    overflow the stack of the builder; with an invalid index it fails. *)
Theorem mesh_make_partial cap pos fs thick : (1 <= cap)%nat -> fs <> [] -> small (2 * length fs) ->
  (indices_valid pos fs -> (exists m, tri_bvh_make cap pos fs thick = Ok m) \/ (128 < length fs /\ tri_bvh_make cap pos fs thick = UB)%nat) /\
  (~ indices_valid pos fs -> tri_bvh_make cap pos fs thick = CheckFail).
Proof.
  intros C N Sm. split.
  - intros V. assert (X : forall k, exists bs, face_boxes pos thick k fs = Ok bs /\ length bs = length fs).
    { clear N Sm. induction fs as [|((ia & ib) & ic) fs IH]; intros k; [exists []; auto|].
      destruct (V ia ib ic) as (L1 & L2 & L3); [left; reflexivity|].
      destruct (nth_error_lt pos ia L1) as (a & E1), (nth_error_lt pos ib L2) as (b & E2), (nth_error_lt pos ic L3) as (c & E3).
      assert (V' : indices_valid pos fs) by (intros ja jb jc I; apply V; right; exact I). destruct (IH V' (S k)) as (bs & E & L).
      cbn [face_boxes]. unfold face_box, corners. rewrite E1, E2, E3. cbn [obind]. rewrite E. cbn [obind].
      eexists. split; [reflexivity|]. cbn. rewrite L. reflexivity. }
    destruct (X 0%nat) as (bs & E & L). unfold tri_bvh_make. rewrite E. cbn [obind].
    destruct (build_hierarchy_partial cap bs C) as [(t & tr & Et & _)|(Lt & Et)].
    { intros ->. destruct fs; [congruence|discriminate]. } { unfold countable. rewrite L. exact Sm. }
    + left. rewrite Et. eexists. reflexivity.
    + right. rewrite Et, <- L. auto.
  - intros V. assert (X : forall k, face_boxes pos thick k fs = CheckFail).
    { clear N Sm. induction fs as [|((ia & ib) & ic) fs IH]; intros k; [exfalso; apply V; intros ? ? ? []|].
      cbn [face_boxes]. unfold face_box, corners.
      destruct (nth_error pos ia) eqn:E1; [|reflexivity]. destruct (nth_error pos ib) eqn:E2; [|reflexivity].
      destruct (nth_error pos ic) eqn:E3; [|reflexivity]. cbn [obind]. rewrite IH; [reflexivity|].
      intros W. apply V. intros ja jb jc [F|I]; [|apply W; exact I]. inversion F. subst.
      repeat split; apply nth_error_Some; congruence. }
    unfold tri_bvh_make. rewrite X. reflexivity.
Qed.
Print Assumptions mesh_make_partial.

(** The closest surface point is a nearest point of the whole mesh, with its face and distance: no
    face has first two corners that coincide and differ from the third. If no point is found, all are
    at squared distance [big] or more. *)
Theorem mesh_closest_correct cap pos fs thick m q big : (1 <= cap)%nat -> fs <> [] -> small (2 * length fs) -> thickness_ok thick ->
  tri_bvh_make cap pos fs thick = Ok m ->
  (forall i a b c, mesh_face pos fs i a b c -> same a b -> same a c) ->
  exists d res, mesh_closest big m q = Ok (d, res) /\
    match res with
    | Some (x, i) => nearest (on_mesh pos fs) q x /\ d = sq_dist x q /\ exists a b c, mesh_face pos fs i a b c /\ in_triangle a b c x
    | None => forall x, on_mesh pos fs x -> big <= sq_dist x q
    end.
Proof.
  intros C N Sm T E Fine. destruct (mesh_inv cap pos fs thick m C N Sm T E) as (<- & <- & tr & Hi & P & Cov).
  assert (Pr : forall i a b c, mesh_face (m_pos m) (m_tri m) i a b c -> nearest (in_triangle a b c) q (face_project m q i)).
  { intros i a b c F. unfold face_project. rewrite (face_of m i a b c F).
    destruct (project_on_triangle_nearest q a b c (Fine i a b c F)) as (ans & x & Ex & Nx & _). rewrite Ex. exact Nx. }
  destruct (closest_surface_point_correct tight cap (m_bvh m) tr q (face_project m q) big Hi) as (d & res & Ed & H).
  - intros b s. unfold tight. tauto.
  - intros bx I. destruct (Cov bx I) as (a & b & c & F & Ci). exact (box_proper_of a b c a bx (corner_in_triangle a b c) Ci).
  - intros bx I. destruct (Cov bx I) as (a & b & c & F & Ci). apply Ci. apply (Pr _ _ _ _ F).
  - exists d, res. split; [exact Ed|]. destruct res as [(x & i)|].
    + destruct H as (bx & I & -> & Ex & Edx & _ & Min). destruct (Cov bx I) as (a & b & c & F & Ci).
      pose proof (Pr _ _ _ _ F) as Nx. rewrite <- Ex in Nx.
      split; [|split; [exact Edx|exists a, b, c; split; [exact F|apply Nx]]].
      split; [exists (bid bx), a, b, c; split; [exact F|apply Nx]|].
      intros y (j & a' & b' & c' & Fj & Iy). destruct (mesh_boxes (m_tri m) m tr cap Hi P j (mesh_face_lt _ _ _ _ _ _ Fj)) as (by' & Iy' & Ej).
      pose proof (Min by' Iy') as M. rewrite Ej in M. pose proof (proj2 (Pr j a' b' c' Fj) y Iy). rewrite <- Edx. lra.
    + intros y (j & a' & b' & c' & Fj & Iy). destruct (mesh_boxes (m_tri m) m tr cap Hi P j (mesh_face_lt _ _ _ _ _ _ Fj)) as (by' & Iy' & Ej).
      pose proof (H by' Iy') as M. rewrite Ej in M. pose proof (proj2 (Pr j a' b' c' Fj) y Iy). lra.
Qed.
Print Assumptions mesh_closest_correct.

(** ** C83: rays and meshes *)

Lemma hit_of eps o d a b c t : 0 < eps -> steep eps d a b c -> crosses o d a b c t ->
  exists h, ray_triangle eps o d a b c = Some h /\ h_t h == t.
Proof.
  intros P S (u & v & w & U & V & W & Sm & E). destruct (ray_triangle_complete eps o d a b c u v w t P S U V W Sm E) as (h & Eh & Et & _).
  exists h. auto.
Qed.

(** The closest-hit callback over a list of faces. *)
Lemma closest_fold eps tmin m o d ids : forall s0, 
  let s := fold_left (fun a i => closest_hit_step eps tmin m o d i a) ids s0 in
  fst s <= fst s0 /\
  (s = s0 \/ exists i h, In i ids /\ face_ray eps m o d i = Some h /\ tmin <= h_t h /\ h_t h <= fst s0 /\ s = (h_t h, Some (i, h))) /\
  (forall i h, In i ids -> face_ray eps m o d i = Some h -> tmin <= h_t h -> h_t h <= fst s0 -> fst s <= h_t h /\ snd s <> None \/ snd s0 <> None /\ fst s <= h_t h).
Proof.
  induction ids as [|i ids IH]; intros s0; cbn [fold_left].
  - split; [lra|]. split; [left; reflexivity|]. intros i h [].
  - set (s1 := closest_hit_step eps tmin m o d i s0). specialize (IH s1). cbv zeta in IH.
    set (s := fold_left (fun a i => closest_hit_step eps tmin m o d i a) ids s1) in *. destruct IH as (L & Sh & Min).
    assert (S1 : (s1 = s0 /\ forall h, face_ray eps m o d i = Some h -> ~ (tmin <= h_t h /\ h_t h <= fst s0)) \/
                 exists h, face_ray eps m o d i = Some h /\ tmin <= h_t h /\ h_t h <= fst s0 /\ s1 = (h_t h, Some (i, h))).
    { unfold s1, closest_hit_step. destruct (face_ray eps m o d i) as [h|] eqn:F; [|left; split; [reflexivity|discriminate]].
      destruct (Qleb_spec tmin (h_t h)) as [G1|G1]; [destruct (Qleb_spec (h_t h) (fst s0)) as [G2|G2]|]; cbn [andb].
      - right. exists h. auto.
      - left. split; [reflexivity|]. intros h' X. inversion X. subst h'. lra.
      - left. split; [reflexivity|]. intros h' X. inversion X. subst h'. lra. }
    assert (NN : snd s1 <> None -> snd s <> None).
    { intros X. destruct Sh as [->|(j & h & _ & _ & _ & _ & ->)]; [exact X|discriminate]. }
    destruct S1 as [(E1 & Miss)|(h1 & F1 & G1 & G2 & E1)].
    + rewrite E1 in *. split; [exact L|]. split.
      * destruct Sh as [Es|(j & h & I & R)]; [left; exact Es|right; exists j, h; split; [right; exact I|exact R]].
      * intros j h [<-|I] F A1 A2; [exfalso; exact (Miss h F (conj A1 A2))|]. exact (Min j h I F A1 A2).
    + assert (X1 : fst s1 = h_t h1) by (rewrite E1; reflexivity). assert (X2 : snd s1 <> None) by (rewrite E1; discriminate).
      split; [rewrite X1 in L; lra|]. split.
      * right. destruct Sh as [Es|(j & h & I & F & A1 & A2 & Es)].
        -- exists i, h1. split; [left; reflexivity|]. split; [exact F1|]. split; [exact G1|]. split; [exact G2|]. rewrite Es. exact E1.
        -- exists j, h. split; [right; exact I|]. split; [exact F|]. split; [exact A1|]. split; [rewrite X1 in A2; lra|exact Es].
      * intros j h I F A1 A2. left. split; [|apply NN, X2]. destruct I as [<-|I].
        -- rewrite F1 in F. inversion F. subst h. rewrite X1 in L. exact L.
        -- destruct (Qlt_le_dec (fst s1) (h_t h)) as [Lt|Le]; [lra|]. destruct (Min j h I F A1 Le) as [(M & _)|(_ & M)]; exact M.
Qed.

Lemma nodup_left {A} (l r : list A) : NoDup (l ++ r) -> NoDup l.
Proof.
  induction l as [|x l IH]; intros H; [constructor|]. inversion H as [|y z N ND]. subst. constructor; [|auto].
  intros I. apply N. apply in_or_app. auto.
Qed.

Lemma selected_face big o d cap pos fs m tr ids : hierarchy tight cap (m_bvh m) tr -> 
  Permutation (map bid (t_prims (m_bvh m))) (seq 0 (length fs)) ->
  (forall bx, In bx (t_prims (m_bvh m)) -> exists a b c, mesh_face pos fs (bid bx) a b c /\ (forall x, in_triangle a b c x -> in_box x bx)) ->
  selects (ray_meets_until big o d) (t_prims (m_bvh m)) ids ->
  (forall i, In i ids -> exists a b c, mesh_face pos fs i a b c) /\ NoDup ids /\
  (forall i a b c t, mesh_face pos fs i a b c -> crosses o d a b c t -> 0 <= t -> t <= big -> In i ids).
Proof.
  intros Hi P Cov (ch & oth & Pm & -> & Ho). split; [|split].
  - intros i I. apply in_map_iff in I. destruct I as (bx & <- & I).
    destruct (Cov bx) as (a & b & c & F & _); [eapply Permutation_in; [apply Permutation_sym; exact Pm|]; apply in_or_app; auto|]. exists a, b, c. exact F.
  - assert (ND : NoDup (map bid (t_prims (m_bvh m)))) by (eapply Permutation_NoDup; [apply Permutation_sym; exact P|apply seq_NoDup]).
    apply (Permutation_NoDup (Permutation_map bid Pm)) in ND. rewrite map_app in ND. exact (nodup_left _ _ ND).
  - intros i a b c t F Cr T0 T1. destruct (mesh_boxes fs m tr cap Hi P i (mesh_face_lt _ _ _ _ _ _ F)) as (bx & I & <-).
    pose proof (Permutation_in _ Pm I) as J. apply in_app_or in J. destruct J as [J|J]; [apply in_map; exact J|].
    exfalso. apply (Ho bx J). destruct (Cov bx I) as (a' & b' & c' & F' & Ci). destruct (face_unique _ _ _ _ _ _ _ _ _ F F') as (<- & <- & <-).
    exists t. split; [exact T0|]. split; [exact T1|]. apply Ci, Cr.
Qed.

(** What a reported hit says: it is on the ray at the reported parameter, within the limits of the
    ray, and in the plane of the face with the reported barycentric coordinates. *)
Definition good_hit (eps tmin tmax : Q) (pos : list q3) (fs : list tri) (o d : q3) (r : hit_result) : Prop :=
  tmin <= r_t r /\ r_t r <= tmax /\ same (r_point r) (ray_point o d (r_t r)) /\
  exists a b c, mesh_face pos fs (r_face r) a b c /\
    let '(u, v, w) := r_bary r in same (r_point r) (combine3 a b c u v w) /\ u + v + w == 1 /\ - eps <= u /\ - eps <= v /\ - eps <= w.

Lemma result_good eps tmin tmax m o d i h a b c : 0 < eps -> mesh_face (m_pos m) (m_tri m) i a b c -> face_ray eps m o d i = Some h ->
  tmin <= h_t h -> h_t h <= tmax -> good_hit eps tmin tmax (m_pos m) (m_tri m) o d (make_result m (i, h)).
Proof.
  intros P F E T0 T1. unfold face_ray in E. unfold make_result. cbn [fst snd]. rewrite (face_of m i a b c F) in *.
  destruct (ray_triangle_sound eps o d a b c h P E) as (S1 & S2 & U & V & W). unfold good_hit. cbn [r_t r_face r_point r_bary].
  assert (X : same (add3 (add3 (scale3 (1 - h_u h - h_v h) a) (scale3 (h_u h) b)) (scale3 (h_v h) c)) (combine3 a b c (1 - h_u h - h_v h) (h_u h) (h_v h)))
    by (intros []; cbn; ring).
  split; [exact T0|]. split; [exact T1|]. split; [eapply same_trans; [exact X|]; eapply same_trans; [apply same_sym; exact S2|exact S1]|].
  exists a, b, c. split; [exact F|]. split; [exact X|]. split; [ring|]. auto.
Qed.

(** closestHit reports a good hit that comes no later on the ray than any clear crossing of a face
    within the limits; it reports nothing only if there is none. Directions with a zero component and
    trees deeper than 63 are not covered. *)
Theorem closest_hit_partial cap pos fs thick m big eps tmin tmax o d : (1 <= cap)%nat -> fs <> [] -> small (2 * length fs) -> thickness_ok thick ->
  tri_bvh_make cap pos fs thick = Ok m -> 0 < eps -> no_zero d ->
  (exists res, mesh_closest_hit big eps tmin tmax m o d = Ok res /\
    (forall r, res = Some r -> good_hit eps tmin tmax pos fs o d r) /\
    (forall i a b c t, mesh_face pos fs i a b c -> steep eps d a b c -> crosses o d a b c t ->
       tmin <= t -> t <= tmax -> 0 <= t -> t <= big -> exists r, res = Some r /\ r_t r <= t)) \/
  (mesh_closest_hit big eps tmin tmax m o d = UB /\ exists tr, hierarchy tight cap (m_bvh m) tr /\ 63 < height tr)%nat.
Proof.
  intros C N Sm T E P Z. destruct (mesh_inv cap pos fs thick m C N Sm T E) as (<- & <- & tr & Hi & Pm & Cov).
  unfold mesh_closest_hit.
  destruct (ray_closest_partial tight cap big (m_bvh m) tr o d (closest_hit_step eps tmin m o d) (tmax, None) Hi) as [(ids & Er & Sel)|(D & Er)].
  { unfold tight. tauto. }
  { intros bx I. destruct (Cov bx I) as (a & b & c & F & Ci). exact (box_proper_of a b c a bx (corner_in_triangle a b c) Ci). }
  { exact Z. }
  - left. rewrite Er. cbn [obind]. eexists. split; [reflexivity|].
    destruct (selected_face big o d cap (m_pos m) (m_tri m) m tr ids Hi Pm Cov Sel) as (Fc & _ & Hit).
    destruct (closest_fold eps tmin m o d ids (tmax, None)) as (L & Sh & Min). cbn [fst snd] in *.
    set (s := fold_left (fun a i => closest_hit_step eps tmin m o d i a) ids (tmax, None)) in *. split.
    + intros r Er'. destruct Sh as [Es|(i & h & I & F & A1 & A2 & Es)]; rewrite Es in Er'; cbn [snd option_map] in Er'; [discriminate|].
      apply (f_equal (fun x => match x with Some y => y | None => r end)) in Er'. subst r.
      destruct (Fc i I) as (a & b & c & Fi). exact (result_good eps tmin tmax m o d i h a b c P Fi F A1 A2).
    + intros i a b c t Fi St Cr A1 A2 T0 T1.
      destruct (hit_of eps o d a b c t P St Cr) as (h & Eh & Et).
      assert (F : face_ray eps m o d i = Some h) by (unfold face_ray; rewrite (face_of m i a b c Fi); exact Eh).
      destruct (Min i h (Hit i a b c t Fi Cr T0 T1) F) as [(M & Nn)|(Nn & _)]; [lra|lra| |congruence].
      destruct Sh as [Es|(j & h' & I & F' & B1 & B2 & Es)]; [rewrite Es in Nn; cbn in Nn; congruence|].
      rewrite Es. cbn [snd option_map]. eexists. split; [reflexivity|]. rewrite Es in M. cbn [fst] in M.
      unfold make_result. cbn [fst snd]. destruct (face m j) as ((? & ?) & ?). cbn [r_t]. lra.
  - right. rewrite Er. split; [reflexivity|]. exists tr. auto.
Qed.
Print Assumptions closest_hit_partial.

Lemma all_fold eps tmin tmax m o d ids : forall s0, exists l,
  fold_left (fun a i => all_hits_step eps tmin tmax m o d i a) ids s0 = s0 ++ l /\
  (forall i h, In (i, h) l <-> In i ids /\ face_ray eps m o d i = Some h /\ tmin <= h_t h /\ h_t h <= tmax) /\
  (NoDup ids -> NoDup (map fst l)).
Proof.
  induction ids as [|i ids IH]; intros s0; cbn [fold_left].
  - exists []. rewrite app_nil_r. split; [reflexivity|]. split; [intros i h; split; [intros []|intros ([] & _)]|constructor].
  - destruct (IH (all_hits_step eps tmin tmax m o d i s0)) as (l & El & Hl & Nd).
    assert (X : (all_hits_step eps tmin tmax m o d i s0 = s0 /\ forall h, face_ray eps m o d i = Some h -> ~ (tmin <= h_t h /\ h_t h <= tmax)) \/
                exists h, all_hits_step eps tmin tmax m o d i s0 = s0 ++ [(i, h)] /\ face_ray eps m o d i = Some h /\ tmin <= h_t h /\ h_t h <= tmax).
    { unfold all_hits_step. destruct (face_ray eps m o d i) as [h|] eqn:F; [|left; split; [reflexivity|discriminate]].
      destruct (Qleb_spec tmin (h_t h)) as [G1|G1]; [destruct (Qleb_spec (h_t h) tmax) as [G2|G2]|]; cbn [andb].
      - right. exists h. auto.
      - left. split; [reflexivity|]. intros h' X. inversion X. subst h'. lra.
      - left. split; [reflexivity|]. intros h' X. inversion X. subst h'. lra. }
    destruct X as [(E1 & Miss)|(h1 & E1 & F1 & G1 & G2)].
    + exists l. rewrite El, E1. split; [reflexivity|]. split.
      * intros j h. rewrite Hl. split; [intros (I & R); split; [right; exact I|exact R]|].
        intros ([<-|I] & F & A1 & A2); [exfalso; exact (Miss h F (conj A1 A2))|auto].
      * intros ND. inversion ND. auto.
    + exists ((i, h1) :: l). rewrite El, E1, <- app_assoc. split; [reflexivity|]. split.
      * intros j h. cbn [In]. rewrite Hl. split.
        -- intros [Eq|(I & R)]; [inversion Eq; subst; auto|split; [right; exact I|exact R]].
        -- intros ([<-|I] & F & A1 & A2); [left; congruence|right; auto].
      * intros ND. inversion ND as [|x y NI ND']. subst. cbn [map fst]. constructor; [|auto].
        intros I. apply in_map_iff in I. destruct I as ((j & h) & Ej & I). cbn in Ej. subst j. apply Hl in I. apply NI, I.
Qed.

(** allHits reports good hits only, no face twice, and every clear crossing within the limits. *)
Theorem all_hits_partial cap pos fs thick m big eps tmin tmax o d : (1 <= cap)%nat -> fs <> [] -> small (2 * length fs) -> thickness_ok thick ->
  tri_bvh_make cap pos fs thick = Ok m -> 0 < eps -> no_zero d ->
  (exists res, mesh_all_hits big eps tmin tmax m o d = Ok res /\
    (forall r, In r res -> good_hit eps tmin tmax pos fs o d r) /\ NoDup (map r_face res) /\
    (forall i a b c t, mesh_face pos fs i a b c -> steep eps d a b c -> crosses o d a b c t ->
       tmin <= t -> t <= tmax -> 0 <= t -> t <= big -> exists r, In r res /\ r_face r = i /\ r_t r == t)) \/
  (mesh_all_hits big eps tmin tmax m o d = UB /\ exists tr, hierarchy tight cap (m_bvh m) tr /\ 63 < height tr)%nat.
Proof.
  intros C N Sm T E P Z. destruct (mesh_inv cap pos fs thick m C N Sm T E) as (<- & <- & tr & Hi & Pm & Cov).
  unfold mesh_all_hits.
  destruct (ray_closest_partial tight cap big (m_bvh m) tr o d (all_hits_step eps tmin tmax m o d) [] Hi) as [(ids & Er & Sel)|(D & Er)].
  { unfold tight. tauto. }
  { intros bx I. destruct (Cov bx I) as (a & b & c & F & Ci). exact (box_proper_of a b c a bx (corner_in_triangle a b c) Ci). }
  { exact Z. }
  - left. rewrite Er. cbn [obind]. eexists. split; [reflexivity|].
    destruct (selected_face big o d cap (m_pos m) (m_tri m) m tr ids Hi Pm Cov Sel) as (Fc & Nd & Hit).
    destruct (all_fold eps tmin tmax m o d ids []) as (l & El & Hl & Ndl). rewrite El. cbn [app].
    assert (RF : forall x, r_face (make_result m x) = fst x) by (intros (j & h); unfold make_result; destruct (face m (fst (j, h))) as ((? & ?) & ?); reflexivity).
    assert (RT : forall x, r_t (make_result m x) = h_t (snd x)) by (intros (j & h); unfold make_result; destruct (face m (fst (j, h))) as ((? & ?) & ?); reflexivity).
    split; [|split].
    + intros r I. apply in_map_iff in I. destruct I as ((i & h) & <- & I). apply Hl in I. destruct I as (I & F & A1 & A2).
      destruct (Fc i I) as (a & b & c & Fi). exact (result_good eps tmin tmax m o d i h a b c P Fi F A1 A2).
    + rewrite map_map. rewrite (map_ext _ fst RF). auto.
    + intros i a b c t Fi St Cr A1 A2 T0 T1.
      destruct (hit_of eps o d a b c t P St Cr) as (h & Eh & Et).
      assert (F : face_ray eps m o d i = Some h) by (unfold face_ray; rewrite (face_of m i a b c Fi); exact Eh).
      exists (make_result m (i, h)). rewrite RF, RT. cbn [fst snd]. split; [|split; [reflexivity|exact Et]].
      apply in_map. apply Hl. split; [exact (Hit i a b c t Fi Cr T0 T1)|]. split; [exact F|]. lra.
  - right. rewrite Er. split; [reflexivity|]. exists tr. auto.
Qed.
Print Assumptions all_hits_partial.

(** anyHit answers true only if some face is hit within the limits, and always does when some face is
    clearly crossed within them. *)
Theorem any_hit_partial cap pos fs thick m big eps tmin tmax o d : (1 <= cap)%nat -> fs <> [] -> small (2 * length fs) -> thickness_ok thick ->
  tri_bvh_make cap pos fs thick = Ok m -> 0 < eps -> no_zero d ->
  (exists answer, mesh_any_hit big eps tmin tmax m o d = Ok answer /\
    (answer = true -> exists r, good_hit eps tmin tmax pos fs o d r) /\
    (forall i a b c t, mesh_face pos fs i a b c -> steep eps d a b c -> crosses o d a b c t ->
       tmin <= t -> t <= tmax -> 0 <= t -> t <= big -> answer = true)) \/
  (mesh_any_hit big eps tmin tmax m o d = UB /\ exists tr, hierarchy tight cap (m_bvh m) tr /\ 63 < height tr)%nat.
Proof.
  intros C N Sm T E P Z. destruct (mesh_inv cap pos fs thick m C N Sm T E) as (<- & <- & tr & Hi & Pm & Cov).
  unfold mesh_any_hit, ray_any_hit.
  set (test := fun b => ray_intersects_branchless big b o (inverse3 d)). set (func := any_hit_face eps tmin tmax m o d).
  destruct (walk_all (m_bvh m) test (fun ps _ => Ok (existsb (fun b => func (bid b)) ps)) negb tight cap tr false (S (length (t_flat (m_bvh m)))) Hi)
    as [W|(D & W)]; [lia| |right; split; [exact W|exists tr; auto]].
  left. rewrite W, visit_any. eexists. split; [reflexivity|].
  destruct (hit_split_all tight cap test (m_bvh m) tr Hi) as (oth & Ph & Ho).
  assert (Acc : forall i, func i = true <-> exists h, face_ray eps m o d i = Some h /\ tmin <= h_t h /\ h_t h <= tmax).
  { intros i. unfold func, any_hit_face. destruct (face_ray eps m o d i) as [h|].
    - rewrite and_leb. split; [intros K; exists h; auto|intros (h' & X & K); inversion X; subst; exact K].
    - split; [discriminate|intros (h & X & _); discriminate]. }
  rewrite existsb_exists. split.
  - intros (bx & I & F). apply Acc in F. destruct F as (h & F & A1 & A2).
    assert (J : In bx (t_prims (m_bvh m))) by (eapply Permutation_in; [apply Permutation_sym; exact Ph|]; apply in_or_app; auto).
    destruct (Cov bx J) as (a & b & c & Fi & _). exists (make_result m (bid bx, h)). exact (result_good eps tmin tmax m o d _ h a b c P Fi F A1 A2).
  - intros i a b c t Fi St Cr A1 A2 T0 T1.
    destruct (hit_of eps o d a b c t P St Cr) as (h & Eh & Et).
    destruct (mesh_boxes (m_tri m) m tr cap Hi Pm i (mesh_face_lt _ _ _ _ _ _ Fi)) as (bx & I & Eb).
    apply existsb_exists. exists bx. split.
    + pose proof (Permutation_in _ Ph I) as J. apply in_app_or in J. destruct J as [J|J]; [exact J|]. exfalso.
      destruct (Ho bx J) as (bb & s & Tt & G & L & K & Sub).
      assert (M : ray_meets_until big o d bx).
      { destruct (Cov bx I) as (a' & b' & c' & F' & Ci). rewrite Eb in F'. destruct (face_unique _ _ _ _ _ _ _ _ _ Fi F') as (<- & <- & <-).
        exists t. split; [exact T0|]. split; [exact T1|]. apply Ci, Cr. }
      revert M. eapply (skipped_ray_until big tight o d (m_bvh m)); eauto.
      * unfold tight. tauto.
      * intros b2 I2. destruct (Cov b2 I2) as (a2 & b3 & c2 & F2 & Ci). exact (box_proper_of a2 b3 c2 a2 b2 (corner_in_triangle _ _ _) Ci).
    + rewrite Eb. apply Acc. exists h. split; [unfold face_ray; rewrite (face_of m i a b c Fi); exact Eh|]. lra.
Qed.
Print Assumptions any_hit_partial.

Definition mesh_pos : list q3 := [Q3 0 0 0; Q3 4 0 0; Q3 0 4 0; Q3 0 0 2; Q3 4 0 2; Q3 0 4 2; Q3 9 9 9].
Definition mesh_tris : list tri := [(0, 1, 2); (3, 4, 5); (2, 5, 6)]%nat.
Definition mesh_result {A} (f : tri_bvh -> outcome A) : outcome A := let* m := tri_bvh_make 1 mesh_pos mesh_tris None in f m.
Example mesh_case : indices_valid mesh_pos mesh_tris /\ small (2 * length mesh_tris) /\
  (exists m, tri_bvh_make 1 mesh_pos mesh_tris None = Ok m) /\ no_zero (Q3 (1 # 10) (1 # 10) (-1)) /\
  (exists a b c, mesh_face mesh_pos mesh_tris 1 a b c /\ steep (1 # 1000000) (Q3 (1 # 10) (1 # 10) (-1)) a b c /\ crosses (Q3 1 1 5) (Q3 (1 # 10) (1 # 10) (-1)) a b c 3) /\
  (exists r, mesh_result (fun m => mesh_closest_hit 1000000 (1 # 1000000) (1 # 1000) 1000 m (Q3 1 1 5) (Q3 (1 # 10) (1 # 10) (-1))) = Ok (Some r) /\ r_face r = 1%nat /\ r_t r == 3) /\
  (exists r1 r2, mesh_result (fun m => mesh_all_hits 1000000 (1 # 1000000) (1 # 1000) 1000 m (Q3 1 1 5) (Q3 (1 # 10) (1 # 10) (-1))) = Ok [r1; r2]) /\
  mesh_result (fun m => mesh_any_hit 1000000 (1 # 1000000) (1 # 1000) 2 m (Q3 1 1 5) (Q3 (1 # 10) (1 # 10) (-1))) = Ok false /\
  (exists d x, mesh_result (fun m => mesh_closest 1000000 m (Q3 1 1 (5 # 2))) = Ok (d, Some (x, 1%nat)) /\ d == (1 # 4)).
Proof.
  split. { intros ia ib ic I. cbn in I. repeat (destruct I as [I|I]; [inversion I; subst; cbn; lia|]). destruct I. }
  split; [unfold small; vm_compute; reflexivity|].
  split; [eexists; vm_compute; reflexivity|].
  split; [intros []; cbn; lra|].
  split. { exists (Q3 0 0 2), (Q3 4 0 2), (Q3 0 4 2). split; [exists 3%nat, 4%nat, 5%nat; repeat split|].
    split; [unfold steep; cbv zeta; repeat split; vm_compute; try reflexivity; discriminate|].
    exists (14 # 40), (13 # 40), (13 # 40). repeat split; try lra. intros []; vm_compute; reflexivity. }
  split; [eexists; split; [vm_compute; reflexivity|split; vm_compute; reflexivity]|].
  split; [eexists _, _; vm_compute; reflexivity|].
  split; [vm_compute; reflexivity|].
  eexists _, _. split; [vm_compute; reflexivity|vm_compute; reflexivity].
Qed.
