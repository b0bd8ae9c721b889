(** Linear algebra for blend shapes: least squares. *)

From Coq Require Import Reals List Arith Lia Lra Psatz.
From Verif Require Import Prelude Loops Rbool R3 LinAlg Skin_spec Blend_spec Transform_model Skin_model Blend_model.
Import ListNotations.
Local Open Scope R_scope.

(** ** A least-squares solver, to show that one exists: Gram-Schmidt *)

Fixpoint ls (rows : nat) (A : nat -> nat -> R) (n : nat) (b : nat -> R) : nat -> R :=
  match n with
  | O => fun _ => 0
  | S m =>
    let x := ls rows A m b in
    let z := ls rows A m (fun r => A r m) in
    let s r := A r m - sumn m (fun k => A r k * z k) in
    let res r := b r - sumn m (fun k => A r k * x k) in
    let ss := sumn rows (fun r => s r * s r) in
    if Req_EM_T ss 0 then fun k => if (k =? m)%nat then 0 else x k
    else let t := sumn rows (fun r => res r * s r) / ss in
         fun k => if (k =? m)%nat then t else x k - t * z k
  end.

Lemma sumn_skip m (f g : nat -> R) c : sumn m (fun k => f k * (if (k =? m)%nat then c else g k)) = sumn m (fun k => f k * g k).
Proof. apply sumn_ext. intros i Hi. replace (i =? m)%nat with false; [reflexivity|]. symmetry. apply Nat.eqb_neq. lia. Qed.

Lemma sumn_sq_zero n (f : nat -> R) : sumn n (fun i => f i * f i) = 0 -> forall i, (i < n)%nat -> f i = 0.
Proof.
  intros H i Hi. unfold sumn in H. apply (proj1 (rsum_zero_iff (fun i => f i * f i) (seq 0 n) (fun x _ => Rle_0_sqr (f x)))) with (x := i) in H.
  - nra.
  - apply in_seq. lia.
Qed.

Lemma ls_orth rows A : forall n b j, (j < n)%nat -> sumn rows (fun r => A r j * (b r - sumn n (fun k => A r k * ls rows A n b k))) = 0.
Proof.
  induction n as [|m IH]; intros b j Hj; [lia|].
  set (x := ls rows A m b). set (z := ls rows A m (fun r => A r m)).
  set (s := fun r => A r m - sumn m (fun k => A r k * z k)).
  set (res := fun r => b r - sumn m (fun k => A r k * x k)).
  set (ss := sumn rows (fun r => s r * s r)).
  set (t := sumn rows (fun r => res r * s r) / ss).
  assert (Els : ls rows A (S m) b = if Req_EM_T ss 0 then fun k => if (k =? m)%nat then 0 else x k
                else fun k => if (k =? m)%nat then t else x k - t * z k) by reflexivity.
  rewrite Els. clear Els.
  assert (Os : forall i, (i < m)%nat -> sumn rows (fun r => A r i * s r) = 0) by (intros i Hi; exact (IH (fun r => A r m) i Hi)).
  assert (Or : forall i, (i < m)%nat -> sumn rows (fun r => A r i * res r) = 0) by (intros i Hi; exact (IH b i Hi)).
  (* the column m in terms of s *)
  assert (Oam : forall f, (forall i, (i < m)%nat -> sumn rows (fun r => A r i * f r) = 0) ->
            sumn rows (fun r => A r m * f r) = sumn rows (fun r => s r * f r)).
  { intros f Of. rewrite (sumn_ext rows (fun r => s r * f r) (fun r => A r m * f r - sumn m (fun k => z k * (A r k * f r)))).
    2:{ intros r _. unfold s. rewrite (sumn_ext m (fun k => z k * (A r k * f r)) (fun k => A r k * z k * f r)) by (intros; ring).
        rewrite sumn_scal_r. ring. }
    rewrite sumn_minus, sumn_swap. rewrite (sumn_zero m); [ring|]. intros k Hk. rewrite sumn_scal, (Of k Hk). ring. }
  destruct (Req_EM_T ss 0) as [Z0|NZ].
  - assert (Zs : forall r, (r < rows)%nat -> s r = 0) by (apply sumn_sq_zero; exact Z0).
    rewrite (sumn_ext rows _ (fun r => A r j * res r)).
    2:{ intros r _. rewrite sumn_S. cbv beta. rewrite (sumn_skip m (A r) x), Nat.eqb_refl. unfold res. ring. }
    destruct (Nat.eq_dec j m) as [->|N]; [|apply Or; lia].
    rewrite (Oam res Or). apply sumn_zero. intros r Hr. rewrite (Zs r Hr). ring.
  - rewrite (sumn_ext rows _ (fun r => A r j * res r - t * (A r j * s r))).
    2:{ intros r _. rewrite sumn_S. cbv beta. rewrite (sumn_skip m (A r) (fun k => x k - t * z k)), Nat.eqb_refl.
        rewrite (sumn_ext m (fun k => A r k * (x k - t * z k)) (fun k => A r k * x k - t * (A r k * z k))) by (intros; ring).
        rewrite sumn_minus, sumn_scal. unfold res, s. ring. }
    rewrite sumn_minus, sumn_scal. destruct (Nat.eq_dec j m) as [->|N].
    + rewrite (Oam res Or), (Oam s Os). unfold t. fold ss.
      rewrite (sumn_ext rows (fun r => s r * res r) (fun r => res r * s r)) by (intros; ring). field. exact NZ.
    + rewrite (Or j), (Os j) by lia. ring.
Qed.

(** Orthogonal residuals are shortest. *)
Lemma orth_least rows cols (A : nat -> nat -> R) b x :
  (forall j, (j < cols)%nat -> sumn rows (fun r => A r j * (b r - sumn cols (fun k => A r k * x k))) = 0) -> forall y,
  let miss x := sumn rows (fun r => (sumn cols (fun k => A r k * x k) - b r) * (sumn cols (fun k => A r k * x k) - b r)) in
  miss y = miss x + sumn rows (fun r => sumn cols (fun k => A r k * (y k - x k)) * sumn cols (fun k => A r k * (y k - x k))).
Proof.
  intros O y miss. subst miss. cbv beta.
  set (p := fun r => b r - sumn cols (fun k => A r k * x k)) in *.
  set (d := fun r => sumn cols (fun k => A r k * (y k - x k))).
  assert (D : forall r, sumn cols (fun k => A r k * y k) - b r = d r - p r).
  { intros r. unfold d, p. rewrite (sumn_ext cols (fun k => A r k * (y k - x k)) (fun k => A r k * y k - A r k * x k)) by (intros; ring).
    rewrite sumn_minus. ring. }
  assert (C : sumn rows (fun r => d r * p r) = 0).
  { unfold d. rewrite (sumn_ext rows _ (fun r => sumn cols (fun k => (y k - x k) * (A r k * p r)))).
    2:{ intros r _. rewrite <- sumn_scal_r. apply sumn_ext. intros. ring. }
    rewrite sumn_swap. apply sumn_zero. intros k Hk. rewrite sumn_scal. unfold p. rewrite (O k Hk). ring. }
  rewrite (sumn_ext rows _ (fun r => d r * d r - 2 * (d r * p r) + p r * p r)).
  2:{ intros r _. rewrite (D r). ring. }
  rewrite sumn_plus, sumn_minus, sumn_scal, C.
  rewrite (sumn_ext rows (fun r => (sumn cols (fun k => A r k * x k) - b r) * (sumn cols (fun k => A r k * x k) - b r)) (fun r => p r * p r)).
  2:{ intros r _. unfold p. ring. }
  unfold d. ring.
Qed.

Lemma ls_least_squares : least_squares_solver (fun rows cols A b => ls rows A cols b).
Proof.
  intros rows cols A b y miss. unfold miss. rewrite (orth_least rows cols A b _ (ls_orth rows A cols b) y).
  assert (0 <= sumn rows (fun r => sumn cols (fun k => A r k * (y k - ls rows A cols b k)) * sumn cols (fun k => A r k * (y k - ls rows A cols b k)))).
  { apply sumn_nonneg. intros r _. apply Rle_0_sqr. }
  lra.
Qed.

Lemma ls_definite : definite_solver (fun n M b => ls n M n b).
Proof.
  intros n M b Sy Pd i Hi. pose (r := fun i => b i - sumn n (fun k => M i k * ls n M n b k)).
  assert (O : forall j, (j < n)%nat -> sumn n (fun i => M i j * r i) = 0) by (intros j Hj; exact (ls_orth n M n b j Hj)).
  assert (Q : sumn n (fun i => sumn n (fun j => r i * M i j * r j)) = 0).
  { rewrite sumn_swap. apply sumn_zero. intros j Hj.
    rewrite (sumn_ext n _ (fun i => M i j * r i * r j)) by (intros; ring). rewrite sumn_scal_r, (O j Hj). ring. }
  destruct (Req_dec (r i) 0) as [E|N].
  - unfold r in E. lra.
  - exfalso. apply (Rlt_irrefl 0). rewrite <- Q at 2. apply Pd. exists i. split; assumption.
Qed.

(** ** Points as a vector *)

Lemma sumn_triples n f : sumn (3 * n) f = sumn n (fun i => f (3 * i)%nat + f (3 * i + 1)%nat + f (3 * i + 2)%nat).
Proof.
  induction n as [|n IH]; [reflexivity|]. replace (3 * S n)%nat with (S (S (S (3 * n)))) by lia.
  rewrite !sumn_S, IH. replace (3 * n + 1)%nat with (S (3 * n)) by lia. replace (3 * n + 2)%nat with (S (S (3 * n))) by lia. ring.
Qed.

Lemma flat_x l i : flat l (3 * i)%nat = vx (nth i l vzero).
Proof. unfold flat. replace (3 * i)%nat with (i * 3)%nat by lia. rewrite Nat.div_mul, Nat.mod_mul by lia. reflexivity. Qed.
Lemma div3 i c : (c < 3)%nat -> ((3 * i + c) / 3 = i /\ (3 * i + c) mod 3 = c)%nat.
Proof.
  intros H. split.
  - symmetry. apply (Nat.div_unique _ 3 i c); lia.
  - symmetry. apply (Nat.mod_unique _ 3 i c); lia.
Qed.
Lemma flat_y l i : flat l (3 * i + 1)%nat = vy (nth i l vzero).
Proof. unfold flat. destruct (div3 i 1) as [-> ->]; [lia|]. reflexivity. Qed.
Lemma flat_z l i : flat l (3 * i + 2)%nat = vz (nth i l vzero).
Proof. unfold flat. destruct (div3 i 2) as [-> ->]; [lia|]. reflexivity. Qed.

Lemma unflat_length n f : length (unflat n f) = n.
Proof. unfold unflat. rewrite map_length, seq_length. reflexivity. Qed.
Lemma unflat_nth n f i : (i < n)%nat -> nth_error (unflat n f) i = Some (V3 (f (3 * i)%nat) (f (3 * i + 1)%nat) (f (3 * i + 2)%nat)).
Proof. intros H. unfold unflat. rewrite nth_error_map, nth_error_nth' with (d := 0%nat) by (rewrite seq_length; exact H). rewrite seq_nth by exact H. reflexivity. Qed.

Lemma vsum_comp {A} (f : A -> vec3) l : vsum (map f l) = V3 (rsum (map (fun x => vx (f x)) l)) (rsum (map (fun x => vy (f x)) l)) (rsum (map (fun x => vz (f x)) l)).
Proof. induction l as [|a l IH]; [reflexivity|]. cbn [map vsum fold_right rsum]. fold (vsum (map f l)). rewrite IH. reflexivity. Qed.

Lemma moved_comp M w i : moved M w i =
  V3 (sumn (length w) (fun k => M (3 * i)%nat k * nth k w 0)) (sumn (length w) (fun k => M (3 * i + 1)%nat k * nth k w 0))
     (sumn (length w) (fun k => M (3 * i + 2)%nat k * nth k w 0)).
Proof.
  unfold moved. rewrite vsum_comp. unfold sumn. f_equal; apply rsum_map_ext; intros k _; cbn; ring.
Qed.

(** ** The shape computed and its distance *)

Lemma blended_unflat base M w : blended base M w
  (unflat (length base) (fun r => flat base r + sumn (length w) (fun k => M r k * nth k w 0))).
Proof.
  split; [apply unflat_length|]. intros i b Hb. rewrite unflat_nth by (apply nth_error_len in Hb; exact Hb).
  rewrite flat_x, flat_y, flat_z, (nth_error_nth _ _ _ Hb), moved_comp. reflexivity.
Qed.

Lemma blended_fun base M w a b : blended base M w a -> blended base M w b -> a = b.
Proof.
  intros [La Ha] [Lb Hb]. apply nth_error_ext. intros i. destruct (nth_error base i) as [v|] eqn:E.
  - rewrite (Ha i v E), (Hb i v E). reflexivity.
  - apply nth_error_None in E. rewrite (proj2 (nth_error_None a i)), (proj2 (nth_error_None b i)) by lia. reflexivity.
Qed.

Lemma rsum_combine {A} (f : A -> R) (l : list A) d : rsum (map f l) = sumn (length l) (fun i => f (nth i l d)).
Proof.
  unfold sumn. induction l as [|a l IH]; [reflexivity|]. cbn [length seq map rsum nth]. rewrite IH, <- seq_shift, map_map. reflexivity.
Qed.

Lemma distance2_sum a b : length a = length b ->
  distance2 a b = sumn (length b) (fun i => vnorm2 (vsub (nth i a vzero) (nth i b vzero))).
Proof.
  intros L. unfold distance2. rewrite (rsum_combine _ _ (vzero, vzero)), combine_length, L, Nat.min_id. apply sumn_ext. intros i _.
  rewrite combine_nth by exact L. reflexivity.
Qed.

Lemma weighted_distance2_sum ws a b : length a = length b -> length ws = length b ->
  weighted_distance2 ws a b = sumn (length b) (fun i => nth i ws 0 * nth i ws 0 * vnorm2 (vsub (nth i a vzero) (nth i b vzero))).
Proof.
  intros L Lw. unfold weighted_distance2. rewrite (rsum_combine _ _ (0, (vzero, vzero))), combine_length, combine_length, L, Lw, !Nat.min_id.
  apply sumn_ext. intros i _. rewrite combine_nth by (rewrite combine_length; lia). rewrite combine_nth by exact L. reflexivity.
Qed.

Lemma distance2_flat base M w out verts : blended base M w out -> length verts = length base ->
  distance2 out verts =
  sumn (3 * length base) (fun r => (sumn (length w) (fun k => M r k * nth k w 0) - (flat verts r - flat base r)) *
                                   (sumn (length w) (fun k => M r k * nth k w 0) - (flat verts r - flat base r))).
Proof.
  intros [L H] Lv. rewrite distance2_sum by lia. rewrite sumn_triples, Lv. apply sumn_ext. intros i Hi.
  rewrite !flat_x, !flat_y, !flat_z. destruct (nth_error_lt base i Hi) as [b Eb]. rewrite (nth_error_nth _ _ _ (H i b Eb)), (nth_error_nth _ _ _ Eb), moved_comp.
  unfold vnorm2, vdot, vsub, vadd. cbn. ring.
Qed.

Lemma weighted_flat base M w ws out verts : blended base M w out -> length verts = length base -> length ws = length base ->
  weighted_distance2 ws out verts =
  sumn (3 * length base) (fun r =>
    (sumn (length w) (fun k => M r k * nth (r / 3) ws 0 * nth k w 0) - (flat verts r - flat base r) * nth (r / 3) ws 0) *
    (sumn (length w) (fun k => M r k * nth (r / 3) ws 0 * nth k w 0) - (flat verts r - flat base r) * nth (r / 3) ws 0)).
Proof.
  intros [L H] Lv Lw. rewrite weighted_distance2_sum by lia. rewrite sumn_triples, Lv. apply sumn_ext. intros i Hi.
  rewrite !flat_x, !flat_y, !flat_z. destruct (nth_error_lt base i Hi) as [b Eb]. rewrite (nth_error_nth _ _ _ (H i b Eb)), (nth_error_nth _ _ _ Eb), moved_comp.
  replace (3 * i / 3)%nat with i by (replace (3 * i)%nat with (3 * i + 0)%nat by lia; symmetry; apply (div3 i 0); lia).
  destruct (div3 i 1) as [-> _]; [lia|]. destruct (div3 i 2) as [-> _]; [lia|].
  assert (P : forall r, sumn (length w) (fun k => M r k * nth i ws 0 * nth k w 0) = nth i ws 0 * sumn (length w) (fun k => M r k * nth k w 0)).
  { intros r. rewrite <- sumn_scal. apply sumn_ext. intros. ring. }
  rewrite !P. unfold vnorm2, vdot, vsub, vadd. cbn. ring.
Qed.

Lemma norm2_sum c : norm2 c = sumn (length c) (fun k => nth k c 0 * nth k c 0).
Proof. unfold norm2. exact (rsum_combine (fun x => x * x) c 0). Qed.

Lemma distance2_zero a b : length a = length b -> distance2 a b = 0 -> a = b.
Proof.
  intros L. unfold distance2. revert b L. induction a as [|x a IH]; intros [|y b] L H; try discriminate; [reflexivity|].
  cbn [combine map rsum fst snd] in H.
  assert (P : 0 <= rsum (map (fun x => vnorm2 (vsub (fst x) (snd x))) (combine a b))).
  { apply rsum_nonneg. intros z _. unfold vnorm2, vdot. nra. }
  assert (Q : 0 <= vnorm2 (vsub x y)) by (unfold vnorm2, vdot; nra).
  f_equal.
  - assert (E : vnorm2 (vsub x y) = 0) by lra. unfold vnorm2, vdot, vsub in E. cbn in E.
    pose proof (Rle_0_sqr (vx x - vx y)) as P1. pose proof (Rle_0_sqr (vy x - vy y)) as P2. pose proof (Rle_0_sqr (vz x - vz y)) as P3.
    unfold Rsqr in P1, P2, P3.
    apply vec_ext; apply Rminus_diag_uniq, Rsqr_0_uniq; unfold Rsqr; lra.
  - apply IH; [injection L; auto|lra].
Qed.
Lemma distance2_same a : distance2 a a = 0.
Proof. unfold distance2. induction a as [|x a IH]; [reflexivity|]. cbn. cbn in IH. rewrite IH. unfold vnorm2, vdot, vsub. cbn. ring. Qed.
Lemma distance2_nonneg a b : 0 <= distance2 a b.
Proof. unfold distance2. apply rsum_nonneg. intros z _. unfold vnorm2, vdot. nra. Qed.
