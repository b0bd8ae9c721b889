(** C60: the ray-box tests. *)

From Coq Require Import List QArith Qfield Bool Lqa.
From Verif Require Import Box_model Box_spec Box_proofs.
Import ListNotations.
Local Open Scope Q_scope.

(** C60. The answer is true exactly when the ray meets the box. *)
Theorem ray_test_exact b o v : proper b -> no_zero v ->
  (ray_intersects b o v = true <-> exists t, 0 <= t /\ in_box (ray_point o v t) b).
Proof.
  intros P Z. rewrite ray_intersects_iff_slabs. split; intros (t & T & H); exists t; split; auto.
  - apply ray_point_in. intros d. apply slab_iff; auto.
  - intros d. rewrite slab_iff; auto. apply ray_point_in. exact H.
Qed.
Print Assumptions ray_test_exact.

(** The branchless test finds the hits up to the largest finite ray parameter. *)
Theorem branchless_test_exact big b o v : proper b -> no_zero v ->
  (ray_intersects_branchless big b o (inverse3 v) = true <-> exists t, 0 <= t /\ t <= big /\ in_box (ray_point o v t) b).
Proof.
  intros P Z. unfold ray_intersects_branchless.
  pose proof (branchless_fold b o (inverse3 v) big dims 0 P) as F.
  set (r := fold_left (branchless_step b o (inverse3 v)) dims (0, big)) in *.
  assert (E : Qle_bool (fst r) (snd r) = true <-> exists t, fst r <= t /\ t <= snd r).
  { rewrite Qle_bool_iff. split; [intros H; exists (fst r); split; lra|intros (t & ? & ?); lra]. }
  rewrite E. split; intros (t & H); exists t.
  - apply F in H. destruct H as (H1 & H2 & H3). do 2 (split; [assumption|]). apply ray_point_in. intros d.
    apply slab_iff; auto. apply slab_mul; auto. assert (I : In d dims) by (destruct d; cbn; tauto).
    specialize (H3 d I). unfold inverse3 in H3. rewrite at_make in H3. exact H3.
  - apply F. destruct H as (H1 & H2 & H3). do 2 (split; [assumption|]). intros d _.
    unfold inverse3. rewrite at_make. apply slab_mul; auto. rewrite slab_iff; auto. apply ray_point_in. exact H3.
Qed.
Print Assumptions branchless_test_exact.

(** So the two agree for boxes that the ray does not first meet beyond that parameter. *)
Theorem ray_tests_agree big b o v : proper b -> no_zero v ->
  (forall t, 0 <= t -> in_box (ray_point o v t) b -> exists t', 0 <= t' /\ t' <= big /\ in_box (ray_point o v t') b) ->
  ray_intersects_branchless big b o (inverse3 v) = ray_intersects b o v.
Proof.
  intros P Z H. apply eq_true_iff_eq. rewrite branchless_test_exact, ray_test_exact by assumption. split.
  - intros (t & A & _ & B). exists t. auto.
  - intros (t & A & B). apply (H t); assumption.
Qed.
Print Assumptions ray_tests_agree.

(** The other tests are what they are called. *)
Theorem box_tests_exact b c p :
  (contains_point b p = true <-> in_box p b) /\ (contains_box b c = true <-> inside c b) /\
  (proper b -> proper c -> (box_intersects b c = true <-> exists q, in_box q b /\ in_box q c)).
Proof.
  split; [apply contains_point_iff|]. split; [apply contains_box_iff|]. intros P Q. rewrite box_intersects_iff. split.
  - intros M. exists (make3 (fun d => qmax (at3 (lo b) d) (at3 (lo c) d))).
    split; intros d; rewrite at_make; specialize (M d); specialize (P d); specialize (Q d);
      destruct (qmax_cases (at3 (lo b) d) (at3 (lo c) d)) as [(-> & ?)|(-> & ?)]; lra.
  - intros (q & A & B) d. specialize (A d). specialize (B d). lra.
Qed.
Print Assumptions box_tests_exact.

(** The distance to a box is at most the distance to each of its points, and that of one. *)
Theorem box_distance_exact b p : proper b ->
  (forall q, in_box q b -> sq_dist_to_box b p <= sq_dist q p) /\
  exists q, in_box q b /\ sq_dist_to_box b p == sq_dist q p.
Proof.
  intros P. split.
  - intros q I. unfold sq_dist_to_box, sq_dist.
    assert (E : forall d, (if Qltb (at3 p d) (at3 (lo b) d) then (at3 (lo b) d - at3 p d) * (at3 (lo b) d - at3 p d)
      else if Qltb (at3 (hi b) d) (at3 p d) then (at3 p d - at3 (hi b) d) * (at3 p d - at3 (hi b) d) else 0)
      <= (at3 q d - at3 p d) * (at3 q d - at3 p d)).
    { intros d. specialize (I d). 
      assert (S : forall a c, 0 <= a -> a <= c -> a * a <= c * c) by (intros; nra).
      destruct (Qltb_spec (at3 p d) (at3 (lo b) d)); [apply S; lra|].
      setoid_replace ((at3 q d - at3 p d) * (at3 q d - at3 p d)) with ((at3 p d - at3 q d) * (at3 p d - at3 q d)) by ring.
      destruct (Qltb_spec (at3 (hi b) d) (at3 p d)); [apply S; lra|].
      destruct (Qlt_le_dec (at3 p d) (at3 q d)); nra. }
    pose proof (E DX); pose proof (E DY); pose proof (E DZ). cbn [at3] in *. lra.
  - exists (make3 (fun d => if Qltb (at3 p d) (at3 (lo b) d) then at3 (lo b) d
      else if Qltb (at3 (hi b) d) (at3 p d) then at3 (hi b) d else at3 p d)).
    split.
    + intros d. rewrite at_make. specialize (P d).
      destruct (Qltb_spec (at3 p d) (at3 (lo b) d)); [lra|]. destruct (Qltb_spec (at3 (hi b) d) (at3 p d)); lra.
    + unfold sq_dist_to_box, sq_dist. cbn [make3 qx qy qz].
      assert (E : forall d, (if Qltb (at3 p d) (at3 (lo b) d) then (at3 (lo b) d - at3 p d) * (at3 (lo b) d - at3 p d)
        else if Qltb (at3 (hi b) d) (at3 p d) then (at3 p d - at3 (hi b) d) * (at3 p d - at3 (hi b) d) else 0)
        == ((if Qltb (at3 p d) (at3 (lo b) d) then at3 (lo b) d else if Qltb (at3 (hi b) d) (at3 p d) then at3 (hi b) d else at3 p d) - at3 p d) *
           ((if Qltb (at3 p d) (at3 (lo b) d) then at3 (lo b) d else if Qltb (at3 (hi b) d) (at3 p d) then at3 (hi b) d else at3 p d) - at3 p d)).
      { intros d. destruct (Qltb (at3 p d) (at3 (lo b) d)); [ring|]. destruct (Qltb (at3 (hi b) d) (at3 p d)); ring. }
      rewrite (E DX), (E DY), (E DZ). reflexivity.
Qed.
Print Assumptions box_distance_exact.

(** A ray that meets the unit cube from behind a corner, and one that points away from it. *)
Example ray_case :
  let b := {| lo := Q3 0 0 0; hi := Q3 1 1 1; bid := 0 |} in
  proper b /\ no_zero (Q3 1 1 2) /\ ray_intersects b (Q3 (-1) (-1) (-2)) (Q3 1 1 2) = true /\
  ray_intersects b (Q3 (-1) (-1) (-2)) (Q3 (-1) (-1) (-2)) = false /\
  ray_intersects_branchless 1000 b (Q3 (-1) (-1) (-2)) (inverse3 (Q3 1 1 2)) = true.
Proof.
  cbv zeta. split; [intros []; cbn; lra|]. split; [intros []; cbn; lra|]. repeat split; reflexivity.
Qed.
