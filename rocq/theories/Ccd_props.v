(** C112: collisions of moving edges, and of a moving point and a moving triangle. *)

From Coq Require Import Bool List Reals Lra Psatz.
From Verif Require Import Rbool R3 Cub_model Cub_spec Cub_proofs Cub_props EdgeD_model EdgeD_spec EdgeD_proofs EdgeD_props Ccd_model Ccd_spec Ccd_proofs.
Import ListNotations.
Local Open Scope R_scope.

(** ** Two edges *)

(** A reported collision is one: at some time of the step the edges are closer than the threshold. *)
Theorem ccd_edge_sound x1 x2 x3 x4 v1 v2 v3 v4 thr dt : ccd_edge_edge x1 x2 x3 x4 v1 v2 v3 v4 thr dt = true ->
  exists t s u, 0 < t <= dt /\ 0 <= s <= 1 /\ 0 <= u <= 1 /\
    dist (on_edge (moved x1 v1 t) (moved x2 v2 t) s) (on_edge (moved x3 v3 t) (moved x4 v4 t) u) < thr.
Proof.
  unfold ccd_edge_edge. intros H. apply existsb_exists in H. destruct H as (t & Ht & H). apply candidate_in in Ht. destruct Ht as [Ht _]. change at_time with moved in H.
  destruct (distance_edge_edge (moved x1 v1 t) (moved x2 v2 t) (moved x3 v3 t) (moved x4 v4 t)) as [[[ok s] u] d] eqn:E. apply andb_prop in H. destruct H as [_ H]. apply Rltb_true in H.
  apply edge_distance_sound in E. destruct E as (S & U & ->). exists t, s, u. auto.
Qed.
Print Assumptions ccd_edge_sound.

(** Edges that touch during the step are found, if neither the equation nor the edges at that time are nearly degenerate. *)
Theorem ccd_edge_complete_partial x1 x2 x3 x4 v1 v2 v3 v4 thr dt t s u : 0 < thr -> 0 < t <= dt -> 0 <= s <= 1 -> 0 <= u <= 1 ->
  on_edge (moved x1 v1 t) (moved x2 v2 t) s = on_edge (moved x3 v3 t) (moved x4 v4 t) u ->
  t = dt \/ well_posed x1 x2 x3 x4 v1 v2 v3 v4 ->
  / 10 ^ 4 < len2 (moved x1 v1 t) (moved x2 v2 t) -> / 10 ^ 4 < len2 (moved x3 v3 t) (moved x4 v4 t) ->
  / 10 ^ 4 < area2 (moved x1 v1 t) (moved x2 v2 t) (moved x3 v3 t) (moved x4 v4 t) \/ area2 (moved x1 v1 t) (moved x2 v2 t) (moved x3 v3 t) (moved x4 v4 t) = 0 ->
  ccd_edge_edge x1 x2 x3 x4 v1 v2 v3 v4 thr dt = true.
Proof.
  intros Th Ht Hs Hu T W L1 L2 A. unfold ccd_edge_edge. apply existsb_exists. exists t. split.
  - apply candidate_in. split; [exact Ht|]. destruct W as [->|W]; [right; reflexivity|left]. apply (posed_times _ _ _ _ _ _ _ _ t W). exact (edges_touch_coplanar _ _ _ _ s u T).
  - change at_time with moved. destruct (edge_distance_closest_partial _ _ _ _ L1 L2 A) as (s' & u' & d & E & C). rewrite E. cbn [andb]. apply Rltb_true.
    apply edge_distance_sound in E. destruct E as (_ & _ & ->). destruct C as (_ & _ & C). specialize (C s u Hs Hu). rewrite T in C.
    assert (Z : forall x, dist x x = 0) by (intros x; unfold dist; replace (vnorm2 (vsub x x)) with 0 by (destruct x; unfold vnorm2, vdot, vsub; cbn; ring); apply sqrt_0). rewrite Z in C. lra.
Qed.
Print Assumptions ccd_edge_complete_partial.

(** Two edges that are never longer than 1/100 do not collide, whatever the threshold and however they cross. *)
Theorem ccd_edge_refuted x1 x2 x3 x4 v1 v2 v3 v4 thr dt :
  (forall t, 0 < t <= dt -> len2 (moved x1 v1 t) (moved x2 v2 t) <= / 10 ^ 4 /\ len2 (moved x3 v3 t) (moved x4 v4 t) <= / 10 ^ 4) ->
  ccd_edge_edge x1 x2 x3 x4 v1 v2 v3 v4 thr dt = false.
Proof.
  intros H. unfold ccd_edge_edge. destruct (existsb _ _) eqn:E; [exfalso|reflexivity]. apply existsb_exists in E. destruct E as (t & Ht & E). apply candidate_in in Ht. destruct Ht as [Ht _].
  change at_time with moved in E. pose proof (proj2 (edge_distance_fails _ _ _ _) (H t Ht)) as F.
  destruct (distance_edge_edge (moved x1 v1 t) (moved x2 v2 t) (moved x3 v3 t) (moved x4 v4 t)) as [[[ok s] u] d]. cbn in F. rewrite F in E. discriminate E.
Qed.
Print Assumptions ccd_edge_refuted.

(** ** A point and a triangle *)

(** A reported collision is one: at some time of the step a point inside the triangle is nearer than the threshold. *)
Theorem ccd_vertex_sound x1 x2 x3 x4 v1 v2 v3 v4 thr dt : 0 <= thr -> ccd_vertex_triangle x1 x2 x3 x4 v1 v2 v3 v4 thr dt = true ->
  exists t q, 0 < t <= dt /\ inside_face (moved x1 v1 t) (moved x2 v2 t) (moved x3 v3 t) q /\ dist (moved x4 v4 t) q < thr.
Proof.
  intros Th. unfold ccd_vertex_triangle. intros H. apply existsb_exists in H. destruct H as (t & Ht & H). apply candidate_in in Ht. destruct Ht as [Ht _]. change at_time with moved in H.
  destruct (project_tri (moved x4 v4 t) (moved x1 v1 t) (moved x2 v2 t) (moved x3 v3 t)) as [[|] [q|]] eqn:E; try discriminate H. cbn [andb] in H. apply Rltb_true in H.
  apply project_true in E. destruct E as (v & w & V & W & L & Eq & N). exists t, q. split; [exact Ht|]. split; [split; [exact N|exists v, w; auto]|].
  unfold dist. apply Rlt_le_trans with (sqrt (thr * thr)); [apply sqrt_lt_1_alt; split; [apply vnorm2_nonneg|exact H]|rewrite sqrt_square by exact Th; lra].
Qed.
Print Assumptions ccd_vertex_sound.

(** A point that goes through the inside of the triangle is found, if the equation is not nearly degenerate. *)
Theorem ccd_vertex_complete_partial x1 x2 x3 x4 v1 v2 v3 v4 thr dt t : 0 < thr -> 0 < t <= dt ->
  inside_face (moved x1 v1 t) (moved x2 v2 t) (moved x3 v3 t) (moved x4 v4 t) ->
  t = dt \/ well_posed x1 x2 x3 x4 v1 v2 v3 v4 -> ccd_vertex_triangle x1 x2 x3 x4 v1 v2 v3 v4 thr dt = true.
Proof.
  intros Th Ht I W. unfold ccd_vertex_triangle. apply existsb_exists. exists t. split.
  - apply candidate_in. split; [exact Ht|]. destruct W as [->|W]; [right; reflexivity|left]. apply (posed_times _ _ _ _ _ _ _ _ t W). destruct I as (_ & v & w & _ & _ & _ & ->). apply face_coplanar.
  - change at_time with moved. rewrite (project_inside _ _ _ _ I). cbn [andb]. apply Rltb_true. replace (vnorm2 (vsub (moved x4 v4 t) (moved x4 v4 t))) with 0 by (destruct (moved x4 v4 t); unfold vnorm2, vdot, vsub; cbn; ring). apply Rmult_lt_0_compat; exact Th.
Qed.
Print Assumptions ccd_vertex_complete_partial.

(** A point that goes straight through the middle of a small triangle is missed. *)
Theorem ccd_vertex_refuted : exists x1 x2 x3 x4 v1 v2 v3 v4 thr,
  0 < thr /\ inside_face (moved x1 v1 (/ 2)) (moved x2 v2 (/ 2)) (moved x3 v3 (/ 2)) (moved x4 v4 (/ 2)) /\
  ccd_vertex_triangle x1 x2 x3 x4 v1 v2 v3 v4 thr 1 = false.
Proof.
  set (l := / 2000). set (x2 := V3 l 0 0). set (x3 := V3 0 l 0). set (x4 := V3 (l / 4) (l / 4) l). set (w := V3 0 0 (- (2 * l))). assert (L0 : 0 < l) by (unfold l; lra).
  exists vzero, x2, x3, x4, vzero, vzero, vzero, w, (/ 10000). split; [lra|]. split.
  - split.
    + intros H. apply (f_equal vz) in H. unfold moved, vcross, vsub, vadd, vscale, x2, x3, vzero in H. cbn in H. assert (0 < l * l) by (apply Rmult_lt_0_compat; exact L0). lra.
    + exists (/ 4), (/ 4). split; [lra|]. split; [lra|]. split; [lra|]. unfold on_face, moved, vsub, vadd, vscale, x2, x3, x4, w, vzero. cbn. f_equal; field.
  - unfold ccd_vertex_triangle, times_coplanar, solve_times. cbv zeta. set (d := coef3 (vsub vzero vzero) _ _). set (a := coef2 _ _ _ _ _ _). set (b := coef1 _ _ _ _ _ _).
    assert (D : d = 0) by (unfold d, coef3, vsub, vzero; cbn; ring). assert (A : a = 0) by (unfold a, coef2, vsub, vzero; cbn; ring).
    assert (B : b = - (2 * l * l * l)) by (unfold b, coef1, vsub, vzero, x2, x3, x4, w; cbn; ring).
    rewrite D, A, B, Rabs_R0. assert (T : Rltb 0 tiny9 = true) by (apply Rltb_true; unfold tiny9; lra). rewrite T.
    assert (T2 : Rltb tiny9 (Rabs (- (2 * l * l * l))) = false). { apply Rltb_false. rewrite Rabs_Ropp, Rabs_right by (apply Rle_ge; repeat apply Rmult_le_pos; lra). unfold tiny9, l. lra. }
    rewrite T2. clear d a b D A B T T2.
    assert (C : candidates [0] 1 = [1]). { unfold candidates. cbn [app filter]. destruct (Rleb_spec 0 0); [|lra]. destruct (Rleb_spec 1 0); [lra|]. destruct (Rltb_spec 1 1); [lra|]. reflexivity. }
    rewrite C. cbn [existsb]. rewrite orb_false_r. change at_time with moved. destruct (project_tri (moved x4 w 1) (moved vzero vzero 1) (moved x2 vzero 1) (moved x3 vzero 1)) as [[|] [q|]] eqn:E; try reflexivity.
    apply project_true in E. destruct E as (v & u & _ & _ & _ & Q & _). cbn [andb]. apply Rltb_false. rewrite Q. unfold on_face, moved, vnorm2, vdot, vsub, vadd, vscale, x2, x3, x4, w, vzero. cbn.
    match goal with |- _ <= ?X * ?X + ?Y * ?Y + ?Z * ?Z => pose proof (Rle_0_sqr X) as SX; pose proof (Rle_0_sqr Y) as SY; assert (SZ : Z = - l) by ring; rewrite SZ end. unfold Rsqr in SX, SY. assert (l * l = / 4000000) by (unfold l; lra). lra.
Qed.
Print Assumptions ccd_vertex_refuted.

(** A point that flies over the triangle at half the threshold, and is past it when the step ends, is missed. *)
Theorem ccd_vertex_near_refuted thr : 0 < thr -> exists x1 x2 x3 x4 v1 v2 v3 v4 t q,
  0 < t <= 1 /\ inside_face (moved x1 v1 t) (moved x2 v2 t) (moved x3 v3 t) q /\ dist (moved x4 v4 t) q < thr /\
  ccd_vertex_triangle x1 x2 x3 x4 v1 v2 v3 v4 thr 1 = false.
Proof.
  intros Th. set (x2 := V3 1 0 0). set (x3 := V3 0 1 0). set (x4 := V3 (-1) (/ 4) (thr / 2)). set (w := V3 4 0 0).
  exists vzero, x2, x3, x4, vzero, vzero, vzero, w, (5 / 16), (V3 (/ 4) (/ 4) 0). split; [lra|]. split; [|split].
  - split.
    + intros H. apply (f_equal vz) in H. unfold moved, vcross, vsub, vadd, vscale, x2, x3, vzero in H. cbn in H. lra.
    + exists (/ 4), (/ 4). split; [lra|]. split; [lra|]. split; [lra|]. unfold on_face, moved, vsub, vadd, vscale, x2, x3, vzero. cbn. f_equal; field.
  - unfold dist. apply Rle_lt_trans with (sqrt ((thr / 2) * (thr / 2))); [right; f_equal; unfold vnorm2, vdot, vsub, moved, vadd, vscale, x4, w; cbn; field|]. rewrite sqrt_square; lra.
  - unfold ccd_vertex_triangle, times_coplanar, solve_times. cbv zeta. set (d := coef3 (vsub vzero vzero) _ _). set (a := coef2 _ _ _ _ _ _). set (b := coef1 _ _ _ _ _ _).
    assert (D : d = 0) by (unfold d, coef3, vsub, vzero; cbn; ring). assert (A : a = 0) by (unfold a, coef2, vsub, vzero; cbn; ring).
    assert (B : b = 0) by (unfold b, coef1, vsub, vzero, x2, x3, x4, w; cbn; ring).
    rewrite D, A, B, Rabs_R0. assert (T : Rltb 0 tiny9 = true) by (apply Rltb_true; unfold tiny9; lra). rewrite T.
    assert (T2 : Rltb tiny9 0 = false) by (apply Rltb_false; unfold tiny9; lra). rewrite T2. clear d a b D A B T T2.
    assert (C : candidates [0] 1 = [1]). { unfold candidates. cbn [app filter]. destruct (Rleb_spec 0 0); [|lra]. destruct (Rleb_spec 1 0); [lra|]. destruct (Rltb_spec 1 1); [lra|]. reflexivity. }
    rewrite C. cbn [existsb]. rewrite orb_false_r. change at_time with moved. destruct (project_tri (moved x4 w 1) (moved vzero vzero 1) (moved x2 vzero 1) (moved x3 vzero 1)) as [[|] [q|]] eqn:E; try reflexivity.
    exfalso. revert E. unfold project_tri. cbv zeta. destruct (_ && _); [discriminate|].
    assert (P : Rleb 0 (vdot (vsub (moved x2 vzero 1) (moved vzero vzero 1)) (vsub (moved x4 w 1) (moved x2 vzero 1))) = true) by (apply Rleb_true; unfold vdot, vsub, moved, vadd, vscale, x2, x4, w, vzero; cbn; lra).
    assert (P2 : Rleb (vdot (vsub (moved x3 vzero 1) (moved vzero vzero 1)) (vsub (moved x4 w 1) (moved x2 vzero 1))) (vdot (vsub (moved x2 vzero 1) (moved vzero vzero 1)) (vsub (moved x4 w 1) (moved x2 vzero 1))) = true) by (apply Rleb_true; unfold vdot, vsub, moved, vadd, vscale, x2, x3, x4, w, vzero; cbn; lra).
    rewrite P, P2. cbn [andb]. discriminate.
Qed.
Print Assumptions ccd_vertex_near_refuted.

(** Two unit edges, one falling through the other; a point falling through a triangle; small edges that cross. *)
Example ccd_edge_case : let x1 := vzero in let x2 := V3 1 0 0 in let x3 := V3 (/ 2) (- / 2) 1 in let x4 := V3 (/ 2) (/ 2) 1 in let w := V3 0 0 (-2) in
  on_edge (moved x1 vzero (/ 2)) (moved x2 vzero (/ 2)) (/ 2) = on_edge (moved x3 w (/ 2)) (moved x4 w (/ 2)) (/ 2) /\
  well_posed x1 x2 x3 x4 vzero vzero w w /\ / 10 ^ 4 < len2 (moved x1 vzero (/ 2)) (moved x2 vzero (/ 2)) /\ / 10 ^ 4 < len2 (moved x3 w (/ 2)) (moved x4 w (/ 2)) /\
  / 10 ^ 4 < area2 (moved x1 vzero (/ 2)) (moved x2 vzero (/ 2)) (moved x3 w (/ 2)) (moved x4 w (/ 2)).
Proof.
  cbv zeta. split; [unfold on_edge, moved, vadd, vscale, vsub, vzero; cbn; f_equal; field|]. split.
  - exists 0, 0, 2, (-1). split; [intros t; unfold volume, moved, cubic, vdot, vcross, vsub, vadd, vscale, vzero; cbn; field|]. right. split; [reflexivity|]. right. split; [reflexivity|]. rewrite Rabs_right; lra.
  - unfold len2, area2, moved, vnorm2, vdot, vcross, vsub, vadd, vscale, vzero. cbn. lra.
Qed.
Example ccd_vertex_case : let x2 := V3 1 0 0 in let x3 := V3 0 1 0 in let x4 := V3 (/ 4) (/ 4) 1 in let w := V3 0 0 (-2) in
  inside_face (moved vzero vzero (/ 2)) (moved x2 vzero (/ 2)) (moved x3 vzero (/ 2)) (moved x4 w (/ 2)) /\ well_posed vzero x2 x3 x4 vzero vzero vzero w.
Proof.
  cbv zeta. split.
  - split; [intros H; apply (f_equal vz) in H; unfold moved, vcross, vsub, vadd, vscale, vzero in H; cbn in H; lra|]. exists (/ 4), (/ 4). split; [lra|]. split; [lra|]. split; [lra|]. unfold on_face, moved, vsub, vadd, vscale, vzero. cbn. f_equal; field.
  - exists 0, 0, (-2), 1. split; [intros t; unfold volume, moved, cubic, vdot, vcross, vsub, vadd, vscale, vzero; cbn; field|]. right. split; [reflexivity|]. right. split; [reflexivity|]. rewrite Rabs_left; lra.
Qed.
Example ccd_small_case : let x1 := vzero in let x2 := V3 (/ 200) 0 0 in let x3 := V3 (/ 400) (- / 400) 1 in let x4 := V3 (/ 400) (/ 400) 1 in let w := V3 0 0 (-2) in
  on_edge (moved x1 vzero (/ 2)) (moved x2 vzero (/ 2)) (/ 2) = on_edge (moved x3 w (/ 2)) (moved x4 w (/ 2)) (/ 2) /\
  forall t, len2 (moved x1 vzero t) (moved x2 vzero t) <= / 10 ^ 4 /\ len2 (moved x3 w t) (moved x4 w t) <= / 10 ^ 4.
Proof.
  cbv zeta. split; [unfold on_edge, moved, vadd, vscale, vsub, vzero; cbn; f_equal; field|]. intros t.
  unfold len2. match goal with |- vnorm2 ?a <= _ /\ vnorm2 ?b <= _ => assert (A : a = V3 (/ 200) 0 0) by (unfold moved, vsub, vadd, vscale, vzero; cbn; f_equal; ring); assert (B : b = V3 0 (/ 200) 0) by (unfold moved, vsub, vadd, vscale; cbn; f_equal; field) end.
  rewrite A, B. unfold vnorm2, vdot. cbn. lra.
Qed.
