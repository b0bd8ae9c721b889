From Coq Require Import Bool Reals List Arith Lia Lra Psatz.
From Coquelicot Require Import Coquelicot.
From Verif Require Import Prelude Loops LinAlg Rbool R3 Transform_model Transform_proofs Skeleton_model
  Skeleton_spec FK_model FK_spec FK_proofs FK_deriv_proofs FK_axis_proofs ParamTransform_model
  ParamTransform_spec ParamTransform_proofs Limits_model Limits_spec Limits_proofs Loss_model
  Constraint_model Constraint_spec Constraint_eval_proofs Constraint_proofs Constraint_deriv_proofs
  Skin_model Skin_props CharUtil_model Ellipsoid_model Ellipsoid_spec.
Import ListNotations.
Local Open Scope R_scope.

(** ** Points *)

Lemma tf_point_id x : tf_point tf_id x = x.
Proof. unfold tf_point, tf_id; cbn [trans rot scl]. rewrite qrot_id. vec_ring. Qed.
Lemma tf_inv_point a x : tf_ok a -> tf_point (tf_inv a) (tf_point a x) = x.
Proof. intros H. rewrite <- tf_point_mul by (auto using tf_inv_ok). rewrite tf_mul_inv_l by exact H. apply tf_point_id. Qed.
Lemma tf_point_inv a x : tf_ok a -> tf_point a (tf_point (tf_inv a) x) = x.
Proof. intros H. rewrite <- tf_point_mul by (auto using tf_inv_ok). rewrite tf_mul_inv_r by exact H. apply tf_point_id. Qed.

Lemma vnorm2_zero v : vnorm2 v = 0 -> v = vzero.
Proof.
  destruct v as [x y z]. unfold vnorm2, vdot; cbn. intros H.
  assert (x = 0) by nra. assert (y = 0) by nra. assert (z = 0) by nra. subst. reflexivity.
Qed.
Lemma vec_zero_dec v : v = vzero \/ v <> vzero.
Proof.
  destruct (Req_EM_T (vnorm2 v) 0) as [H|H]; [left; apply vnorm2_zero, H|right]. intros ->. apply H.
  unfold vnorm2, vdot; cbn; ring.
Qed.
Lemma vsub_zero_eq a b : vsub a b = vzero -> a = b.
Proof. destruct a, b. unfold vsub, vzero. intros H. cbn in H. injection H as H1 H2 H3. f_equal; lra. Qed.
Lemma vscale_1 a : vscale 1 a = a.
Proof. vec_ring. Qed.
Lemma vnorm2_pos v : 0 <= vnorm2 v.
Proof. destruct v; unfold vnorm2, vdot; cbn; nra. Qed.
Lemma vdot_scale2 s v : vdot (vscale s v) (vscale s v) = s * s * vdot v v.
Proof. destruct v; unfold vdot; cbn; ring. Qed.
Lemma vdot_scale_both s a b : vdot (vscale s a) (vscale s b) = s * s * vdot a b.
Proof. destruct a, b; unfold vdot; cbn; ring. Qed.
Lemma normalized_scaled lam u : vdot u u = 1 -> 0 < lam -> normalized (vscale lam u) = u.
Proof.
  intros H L. unfold normalized, vnorm2. rewrite vdot_scale2, H, Rmult_1_r.
  destruct (Rltb_spec 0 (lam * lam)) as [_|C]; [|nra].
  rewrite sqrt_square by lra. destruct u as [x y z]. unfold vscale; cbn. f_equal; field; lra.
Qed.
Lemma normalized_split v : v <> vzero ->
  exists u lam, vdot u u = 1 /\ 0 < lam /\ v = vscale lam u /\ lam = sqrt (vnorm2 v).
Proof.
  intros N. assert (P : 0 < vnorm2 v).
  { destruct (Rle_lt_or_eq_dec _ _ (vnorm2_pos v)) as [H|H]; [exact H|]. elim N. apply vnorm2_zero. congruence. }
  pose proof (sqrt_lt_R0 _ P) as SP. pose proof (sqrt_sqrt _ (Rlt_le _ _ P)) as SS.
  exists (vscale (/ sqrt (vnorm2 v)) v), (sqrt (vnorm2 v)).
  split; [|split; [exact SP|split; [|reflexivity]]].
  - rewrite vdot_scale2. fold (vnorm2 v). rewrite <- SS at 3. field. lra.
  - destruct v as [x y z]. unfold vscale; cbn [vx vy vz]. f_equal; field; lra.
Qed.
Lemma normalized_zero : normalized vzero = vzero.
Proof.
  unfold normalized. replace (vnorm2 vzero) with 0 by (unfold vnorm2, vdot; cbn; ring).
  destruct (Rltb_spec 0 0); [lra|reflexivity].
Qed.

(** ** One ellipsoid limit *)

Lemma ell_data l e p : ell l = Some (e, p) <-> ldata (fl_limit l) = LEllipsoid e p.
Proof. unfold ell. destruct (ldata (fl_limit l)); split; intros H; try discriminate; injection H as <- <-; reflexivity. Qed.

Section One.
Context (sts : list jstate) (l : flimit) (e p : nat) (sp se : jstate)
  (HE : ell l = Some (e, p)) (Hp : nth_error sts p = Some sp) (He : nth_error sts e = Some se)
  (OK : tf_ok (js_world se)) (INV : inverse_maps l).

Definition unit_pos : vec3 := aff_point (fl_inv l) (tf_point (tf_inv (js_world se)) (limited_point sts l)).

Lemma limited_eq : limited_point sts l = tf_point (js_world sp) (fl_offset l).
Proof. unfold limited_point, world_point. rewrite HE, Hp. reflexivity. Qed.
Lemma image_eq u : ell_image sts l u = tf_point (js_world se) (aff_point (fl_map l) u).
Proof. unfold ell_image, world_point. rewrite HE, He. reflexivity. Qed.
Lemma unit_pos_image : limited_point sts l = ell_image sts l unit_pos.
Proof. rewrite image_eq. unfold unit_pos. rewrite (proj2 INV), tf_point_inv by exact OK. reflexivity. Qed.
Lemma image_unit u : limited_point sts l = ell_image sts l u -> unit_pos = u.
Proof. intros H. unfold unit_pos. rewrite H, image_eq, tf_inv_point by exact OK. apply (proj1 INV). Qed.
Lemma diff_eq : ellipsoid_diff sts l = Ok (vsub (limited_point sts l) (ell_image sts l (normalized unit_pos))).
Proof.
  unfold ellipsoid_diff. rewrite (proj1 (ell_data l e p) HE). unfold rd. rewrite Hp, He. cbn [obind].
  rewrite !tf_affine_point, image_eq. unfold unit_pos. rewrite limited_eq. reflexivity.
Qed.
Lemma diff_radial y : radial_point sts l y -> ellipsoid_diff sts l = Ok (vsub (limited_point sts l) y).
Proof.
  intros (u & lam & H1 & H2 & H3 & ->). rewrite diff_eq, (image_unit _ H3), (normalized_scaled _ _ H1 H2). reflexivity.
Qed.
Lemma radial_exists : ~ at_centre sts l -> radial_point sts l (ell_image sts l (normalized unit_pos)).
Proof.
  intros N. assert (NZ : unit_pos <> vzero) by (intros Z; apply N; unfold at_centre; rewrite <- Z; apply unit_pos_image).
  destruct (normalized_split _ NZ) as (u & lam & U1 & U2 & U3 & _). exists u, lam.
  split; [exact U1|]. split; [exact U2|]. split; [rewrite <- U3; apply unit_pos_image|].
  rewrite U3 at 1. rewrite (normalized_scaled _ _ U1 U2). reflexivity.
Qed.
Lemma radial_normalized y : radial_point sts l y -> y = ell_image sts l (normalized unit_pos) /\ unit_pos <> vzero.
Proof.
  intros (u & lam & H1 & H2 & H3 & ->). rewrite (image_unit _ H3), (normalized_scaled _ _ H1 H2). split; [reflexivity|].
  intros Z. assert (Q : vdot (vscale lam u) (vscale lam u) = 0) by (rewrite Z; unfold vdot; cbn; ring).
  rewrite vdot_scale2, H1 in Q. nra.
Qed.
Lemma diff_zero : vsub (limited_point sts l) (ell_image sts l (normalized unit_pos)) = vzero <->
  on_surface sts l \/ at_centre sts l.
Proof.
  split.
  - intros D. destruct (vec_zero_dec unit_pos) as [Z|NZ].
    + right. unfold at_centre. rewrite <- Z. apply unit_pos_image.
    + left. destruct (normalized_split _ NZ) as (u & lam & U1 & U2 & U3 & _). exists u. split; [exact U1|].
      rewrite U3, (normalized_scaled _ _ U1 U2) in D.
      apply vsub_zero_eq. exact D.
  - intros [(u & U1 & U2)|C].
    + rewrite (image_unit _ U2). rewrite <- (vscale_1 u) at 1.
      rewrite (normalized_scaled 1 u U1) by lra. rewrite U2. apply vsub_diag.
    + rewrite (image_unit _ C), normalized_zero, C. apply vsub_diag.
Qed.
End One.

(** ** The walk *)

Lemma ell_dofs_ok active pos k s : (k * 7 + 7 <= length active)%nat ->
  exists ts, ell_dofs active pos k s = Ok ts /\
    forall g C, linear g -> inactive0 active C ->
      rsum (map (fun x => g (snd x) * C (fst x)) ts) = g (vel_of true s (jpC C k) pos).
Proof.
  intros HA. unfold ell_dofs. cbv zeta. set (off := vsub pos (trans (js_world s))).
  destruct (active_dofs_ok active (k * 7)
    [(0%nat, get_translation_derivative s 0); (3%nat, get_rotation_derivative s 0 off);
     (1%nat, get_translation_derivative s 1); (4%nat, get_rotation_derivative s 1 off);
     (2%nat, get_translation_derivative s 2); (5%nat, get_rotation_derivative s 2 off);
     (6%nat, get_scale_derivative s off)]) as [ts [E S]].
  { intros q d H. cbn in H. repeat (destruct H as [H|H]; [injection H as <- _; lia|]). contradiction. }
  exists ts. split; [exact E|]. intros g C L Z. rewrite (S g C Z).
  unfold vel_of, joint_velocity. rewrite linear_vsum by exact L. destruct L as [_ L2].
  cbn [map rsum fst snd jpC jtx jty jtz jrx jry jrz jsc]. rewrite !L2.
  rewrite (Nat.mul_comm k 7). unfold off. ring.
Qed.

Lemma vel_zero s v : vel_of true s (JP 0 0 0 0 0 0 0) v = vzero.
Proof.
  unfold vel_of, joint_velocity. cbn [jtx jty jtz jrx jry jrz jsc]. rewrite !vscale_0_l. cbn [vsum].
  rewrite !vadd_0_r. reflexivity.
Qed.
Definition still (C : nat -> R) (a : nat) : Prop := forall k, (k < 7)%nat -> C (7 * a + k)%nat = 0.
Lemma still_jpC C a : still C a -> jpC C a = JP 0 0 0 0 0 0 0.
Proof. intros H. unfold jpC. rewrite !H by lia. reflexivity. Qed.
Lemma still_chain_vel sts C ch v : (forall a, In a ch -> still C a) -> chain_vel sts C ch true v = vzero.
Proof.
  unfold chain_vel. induction ch as [|a ch IH]; intros H; [reflexivity|]. cbn [map vsum].
  rewrite IH by (intros; apply H; right; assumption). rewrite vadd_0_r.
  destruct (nth_error sts a); [|reflexivity]. rewrite (still_jpC C a) by (apply H; left; reflexivity). apply vel_zero.
Qed.
Lemma chain_vel_snoc sts C ch a s v : nth_error sts a = Some s ->
  chain_vel sts C (ch ++ [a]) true v = vadd (chain_vel sts C ch true v) (vel_of true s (jpC C a) v).
Proof.
  intros E. unfold chain_vel. rewrite map_app. cbn [map]. rewrite E.
  generalize (vel_of true s (jpC C a) v). intros w. clear E.
  induction (map _ ch) as [|x xs IH]; cbn [app vsum]; [apply vadd_comm|]. rewrite IH. apply vadd_assoc.
Qed.

Lemma ell_walk_ok sk sts active pos stop : valid_sk sk -> length sts = length sk -> (7 * length sk <= length active)%nat ->
  forall j ch, chain sk j ch -> forall fuel, (length ch <= fuel)%nat ->
  exists ts, ell_walk fuel sk sts stop (ell_dofs active pos) (Some j) = Ok ts /\
    forall g C, linear g -> inactive0 active C -> (forall ch' a, chain sk stop ch' -> In a ch' -> still C a) ->
      rsum (map (fun x => g (snd x) * C (fst x)) ts) = g (chain_vel sts C ch true pos).
Proof.
  intros V HL HA j ch Hc. induction Hc as [j jt E P|j jt pr ch E P Hc IH]; intros fuel Hf.
  - assert (Hj : (j < length sk)%nat) by (apply nth_error_Some; congruence).
    destruct fuel as [|fuel]; [cbn in Hf; lia|]. cbn [ell_walk]. destruct (Nat.eqb_spec j stop) as [Ej|Ej].
    + exists []. split; [reflexivity|]. intros g C L I Z. cbn [map rsum]. subst stop.
      rewrite still_chain_vel; [symmetry; apply linear_zero, L|].
      intros a Ha. apply (Z [j] a); [eapply chain_root; eassumption|exact Ha].
    + rewrite E. unfold rd. destruct (nth_error sts j) as [s|] eqn:Es; [|apply nth_error_None in Es; lia].
      cbn [obind]. destruct (ell_dofs_ok active pos j s ltac:(lia)) as [ts [E1 S1]]. rewrite E1. cbn [obind].
      rewrite P. replace (ell_walk fuel sk sts stop (ell_dofs active pos) None) with (Ok (@nil (nat * vec3))) by (destruct fuel; reflexivity).
      cbn [obind]. rewrite app_nil_r. exists ts. split; [reflexivity|]. intros g C L I Z. rewrite (S1 g C L I).
      change [j] with ([] ++ [j]). rewrite (chain_vel_snoc _ _ _ _ _ _ Es). unfold chain_vel. cbn [map vsum]. rewrite vadd_0_l. reflexivity.
  - assert (Hj : (j < length sk)%nat) by (apply nth_error_Some; congruence).
    rewrite app_length in Hf; cbn in Hf. destruct fuel as [|fuel]; [lia|].
    cbn [ell_walk]. destruct (Nat.eqb_spec j stop) as [Ej|Ej].
    + exists []. split; [reflexivity|]. intros g C L I Z. cbn [map rsum]. subst stop.
      rewrite still_chain_vel; [symmetry; apply linear_zero, L|].
      intros a Ha. apply (Z (ch ++ [j]) a); [eapply chain_child; eassumption|exact Ha].
    + rewrite E. unfold rd. destruct (nth_error sts j) as [s|] eqn:Es; [|apply nth_error_None in Es; lia].
      cbn [obind]. destruct (ell_dofs_ok active pos j s ltac:(lia)) as [ts [E1 S1]]. rewrite E1. cbn [obind].
      destruct (IH fuel ltac:(lia)) as [ts2 [E2 S2]]. rewrite P, E2. cbn [obind]. eexists; split; [reflexivity|].
      intros g C L I Z. rewrite map_app, rsum_app, (S1 g C L I), (S2 g C L I Z), (chain_vel_snoc _ _ _ _ _ _ Es).
      destruct L as [L1 _]. rewrite L1. ring.
Qed.

Lemma chain_vel_app sts C a b v : chain_vel sts C (a ++ b) true v = vadd (chain_vel sts C a true v) (chain_vel sts C b true v).
Proof.
  unfold chain_vel. rewrite map_app. induction (map _ a) as [|x xs IH]; cbn [app vsum]; [symmetry; apply vadd_0_l|].
  rewrite IH. apply vadd_assoc.
Qed.

(** If the walk meets the joint where it stops, it sums over the joints below. *)
Lemma ell_walk_below sk sts active pos stop : valid_sk sk -> length sts = length sk -> (7 * length sk <= length active)%nat ->
  forall j ch, chain sk j ch -> In stop ch -> forall fuel, (length ch <= fuel)%nat ->
  exists che rest, chain sk stop che /\ ch = che ++ rest /\
  exists ts, ell_walk fuel sk sts stop (ell_dofs active pos) (Some j) = Ok ts /\
    forall g C, linear g -> inactive0 active C ->
      rsum (map (fun x => g (snd x) * C (fst x)) ts) = g (chain_vel sts C rest true pos).
Proof.
  intros V HL HA j ch Hc. induction Hc as [j jt E P|j jt pr ch E P Hc IH]; intros Hin fuel Hf.
  - destruct Hin as [<-|[]]. destruct fuel as [|fuel]; [cbn in Hf; lia|]. cbn [ell_walk]. rewrite Nat.eqb_refl.
    exists [j], []. split; [eapply chain_root; eassumption|]. split; [reflexivity|]. exists []. split; [reflexivity|].
    intros g C L I. symmetry. apply linear_zero, L.
  - assert (Hj : (j < length sk)%nat) by (apply nth_error_Some; congruence).
    rewrite app_length in Hf; cbn in Hf. destruct fuel as [|fuel]; [lia|].
    cbn [ell_walk]. destruct (Nat.eqb_spec j stop) as [Ej|Ej].
    + subst stop. exists (ch ++ [j]), []. split; [eapply chain_child; eassumption|]. split; [rewrite app_nil_r; reflexivity|].
      exists []. split; [reflexivity|]. intros g C L I. symmetry. apply linear_zero, L.
    + apply in_app_or in Hin as [Hin|[Hin|[]]]; [|contradiction].
      destruct (IH Hin fuel ltac:(lia)) as (che & rest & C1 & C2 & ts2 & E2 & S2).
      rewrite E. unfold rd. destruct (nth_error sts j) as [s|] eqn:Es; [|apply nth_error_None in Es; lia].
      cbn [obind]. destruct (ell_dofs_ok active pos j s ltac:(lia)) as [ts [E1 S1]]. rewrite E1. cbn [obind].
      exists che, (rest ++ [j]). split; [exact C1|]. split; [rewrite C2, app_assoc; reflexivity|].
      rewrite P, E2. cbn [obind]. eexists; split; [reflexivity|].
      intros g C L I. rewrite map_app, rsum_app, (S1 g C L I), (S2 g C L I), (chain_vel_snoc _ _ _ _ _ _ Es).
      destruct L as [L1 _]. rewrite L1. ring.
Qed.

(** A motion without scaling keeps the distance of two points. *)
Lemma rigid_joint s d x c : jsc d = 0 ->
  vdot (vsub x c) (vsub (vel_of true s d x) (vel_of true s d c)) = 0.
Proof.
  intros Z. unfold vel_of, joint_velocity, get_rotation_derivative, get_translation_derivative, get_scale_derivative. rewrite Z.
  generalize (mcol (js_taxis s) 0), (mcol (js_taxis s) 1), (mcol (js_taxis s) 2), (mcol (js_raxis s) 0), (mcol (js_raxis s) 1), (mcol (js_raxis s) 2), (trans (js_world s)).
  generalize (jtx d), (jty d), (jtz d), (jrx d), (jry d), (jrz d), (ln 2). intros.
  repeat match goal with v : vec3 |- _ => destruct v end. unfold vdot, vsub, vcross, vadd, vscale; cbn. ring.
Qed.
Lemma rigid_chain sts C ch x c : (forall a, In a ch -> C (7 * a + 6)%nat = 0) ->
  vdot (vsub x c) (vsub (chain_vel sts C ch true x) (chain_vel sts C ch true c)) = 0.
Proof.
  unfold chain_vel. induction ch as [|a ch IH]; intros H.
  - cbn [map vsum]. rewrite vsub_diag. unfold vdot; cbn. ring.
  - cbn [map vsum]. specialize (IH (fun b Hb => H b (or_intror Hb))).
    assert (J : vdot (vsub x c) (vsub (match nth_error sts a with Some sa => vel_of true sa (jpC C a) x | None => vzero end)
                                     (match nth_error sts a with Some sa => vel_of true sa (jpC C a) c | None => vzero end)) = 0).
    { destruct (nth_error sts a); [apply rigid_joint; cbn; apply H; left; reflexivity|rewrite vsub_diag; unfold vdot; cbn; ring]. }
    revert IH J. generalize (vsum (map (fun a0 => match nth_error sts a0 with Some sa => vel_of true sa (jpC C a0) x | None => vzero end) ch)).
    generalize (vsum (map (fun a0 => match nth_error sts a0 with Some sa => vel_of true sa (jpC C a0) c | None => vzero end) ch)).
    generalize (match nth_error sts a with Some sa => vel_of true sa (jpC C a) x | None => vzero end).
    generalize (match nth_error sts a with Some sa => vel_of true sa (jpC C a) c | None => vzero end).
    generalize (vsub x c). intros w a1 a2 a3 a4. destruct w, a1, a2, a3, a4. unfold vdot, vsub, vadd; cbn. lra.
Qed.

Lemma dsum_spread es ts f i :
  dsum (spread es ts f) i = rsum (map (fun rv => f (snd rv) * ent_coeff es (fst rv) i) ts).
Proof.
  unfold spread. induction ts as [|[r v] ts IH]; [reflexivity|]. cbn [flat_map map rsum fst snd].
  rewrite dsum_app, dsum_row_incs, IH. reflexivity.
Qed.
Lemma spread_in es ts f k v : In (k, v) (spread es ts f) -> exists en, In en es /\ ecol en = k.
Proof. intros H. unfold spread in H. apply in_flat_map in H as [rv [_ H]]. eapply row_incs_in; eassumption. Qed.

(** ** Joints that do not move *)

Lemma chain_same sk q q' sts sts' j ch : fk_states sk q sts -> fk_states sk q' sts' -> chain sk j ch ->
  (forall a, In a ch -> jparam_at q a = jparam_at q' a) -> nth_error sts j = nth_error sts' j.
Proof.
  intros [L1 F1] [L2 F2] Hc. induction Hc as [j jt E P|j jt pr ch E P Hc IH]; intros H.
  - destruct (F1 j jt E) as [ps [A1 A2]]. destruct (F2 j jt E) as [ps' [B1 B2]]. rewrite A2, B2.
    unfold parent_state in *. rewrite P in A1, B1. subst. rewrite (H j) by (left; reflexivity). reflexivity.
  - destruct (F1 j jt E) as [ps [A1 A2]]. destruct (F2 j jt E) as [ps' [B1 B2]]. rewrite A2, B2.
    assert (Q : nth_error sts pr = nth_error sts' pr) by (apply IH; intros; apply H; apply in_or_app; left; assumption).
    unfold parent_state in *. rewrite P in A1, B1. destruct A1 as [s1 [A1 ->]]. destruct B1 as [s2 [B1 ->]].
    rewrite (H j) by (apply in_or_app; right; left; reflexivity). congruence.
Qed.

Lemma chain_scale sk q q' sts sts' j ch s s' : fk_states sk q sts -> fk_states sk q' sts' -> chain sk j ch ->
  (forall a, In a ch -> jsc (jparam_at q a) = jsc (jparam_at q' a)) ->
  nth_error sts j = Some s -> nth_error sts' j = Some s' -> scl (js_world s) = scl (js_world s').
Proof.
  intros [L1 F1] [L2 F2] Hc. revert s s'. induction Hc as [j jt E P|j jt pr ch E P Hc IH]; intros s s' H S1 S2.
  - destruct (F1 j jt E) as [ps [A1 A2]]. destruct (F2 j jt E) as [ps' [B1 B2]].
    unfold parent_state in *. rewrite P in A1, B1. subst. rewrite A2 in S1. rewrite B2 in S2. injection S1 as <-. injection S2 as <-.
    unfold joint_state_set, tf_mul. cbv zeta. cbn [js_world scl]. rewrite (H j) by (left; reflexivity). reflexivity.
  - destruct (F1 j jt E) as [ps [A1 A2]]. destruct (F2 j jt E) as [ps' [B1 B2]].
    unfold parent_state in *. rewrite P in A1, B1. destruct A1 as [s1 [A1 ->]]. destruct B1 as [s2 [B1 ->]].
    rewrite A2 in S1. rewrite B2 in S2. injection S1 as <-. injection S2 as <-.
    unfold joint_state_set, tf_mul. cbv zeta. cbn [js_world scl]. rewrite (H j) by (apply in_or_app; right; left; reflexivity). f_equal.
    apply IH; [intros; apply H; apply in_or_app; left; assumption|exact A1|exact B1].
Qed.

(** ** The error *)

(** The surface point that the code projects to. *)
Definition projection (sts : list jstate) (l : flimit) : vec3 :=
  match ell l with
  | Some (e, _) => match nth_error sts e with Some se => ell_image sts l (normalized (unit_pos sts l se)) | None => vzero end
  | None => vzero
  end.

Lemma ell_none_err X p jp sts l : ell l = None -> lx_err1 X p jp sts l = lim_err1 (xl_base X) p jp (fl_limit l).
Proof. unfold ell, lx_err1. destruct (ldata (fl_limit l)); intros H; try reflexivity. discriminate. Qed.
Lemma ell_none_grad X p jp sts l : ell l = None -> lx_grad1 X p jp sts l = lim_grad1 (xl_base X) p jp (fl_limit l).
Proof. unfold ell, lx_grad1. destruct (ldata (fl_limit l)); intros H; try reflexivity. discriminate. Qed.
Lemma ell_none_jac X p jp sts l : ell l = None -> lx_jac1 X p jp sts l = lim_jac1 (xl_base X) p jp (fl_limit l).
Proof. unfold ell, lx_jac1. destruct (ldata (fl_limit l)); intros H; try reflexivity. discriminate. Qed.

Section Fn.
Context (X : xlimit_fn) (W : xlimit_wf X) (WP : pt_wf (xl_pt X))
  (V : valid_sk (xl_sk X)) (U : unit_prerotations (xl_sk X)).

Lemma base_wf : limit_fn_wf (xl_base X) (pt_rows (xl_pt X)).
Proof.
  constructor; cbn [xl_base lf_n lf_active lf_entries lf_limits].
  - apply (wf_max _ WP).
  - apply (xw_active_len X W).
  - intros e He. apply (wf_entries _ WP e He).
  - intros l [].
Qed.

Section At.
Context (p jp : list R) (sts : list jstate) (Lp : length p = pt_cols (xl_pt X))
  (Ljp : length jp = pt_rows (xl_pt X)) (F : fk_states (xl_sk X) jp sts).

Lemma ell_states l e pj : In l (xl_limits X) -> ell l = Some (e, pj) ->
  exists sp se, nth_error sts pj = Some sp /\ nth_error sts e = Some se /\ tf_ok (js_world se).
Proof.
  clear Lp Ljp. intros Hl HE. destruct (xw_ell X W l e pj Hl HE) as [H1 H2]. rewrite <- (proj1 F) in H1, H2.
  destruct (nth_error sts pj) as [sp|] eqn:E1; [|apply nth_error_None in E1; lia].
  destruct (nth_error sts e) as [se|] eqn:E2; [|apply nth_error_None in E2; lia].
  exists sp, se. split; [reflexivity|]. split; [reflexivity|]. apply tf_good_ok, (fk_good _ _ _ V U F e se E2).
Qed.
Lemma projection_diff l e pj : In l (xl_limits X) -> ell l = Some (e, pj) ->
  ellipsoid_diff sts l = Ok (vsub (limited_point sts l) (projection sts l)).
Proof.
  intros Hl HE. destruct (ell_states l e pj Hl HE) as (sp & se & E1 & E2 & E3).
  rewrite (diff_eq sts l e pj sp se HE E1 E2). unfold projection. rewrite HE, E2. reflexivity.
Qed.
Lemma radial_projection l y e pj : In l (xl_limits X) -> ell l = Some (e, pj) -> inverse_maps l -> radial_point sts l y -> y = projection sts l.
Proof.
  intros Hl HE I HR. destruct (ell_states l e pj Hl HE) as (sp & se & E1 & E2 & E3).
  unfold projection. rewrite HE, E2. apply (radial_normalized sts l e pj se HE E2 E3 I y HR).
Qed.
Lemma projection_radial l e pj : In l (xl_limits X) -> ell l = Some (e, pj) -> inverse_maps l -> ~ at_centre sts l ->
  radial_point sts l (projection sts l).
Proof.
  intros Hl HE I HR. destruct (ell_states l e pj Hl HE) as (sp & se & E1 & E2 & E3).
  unfold projection. rewrite HE, E2. apply (radial_exists sts l e pj se HE E2 E3 I HR).
Qed.

Lemma lx_err1_ok l : In l (xl_limits X) ->
  lx_err1 X p jp sts l = Ok (lweight (fl_limit l) * ell_violation2 X (projection sts) p jp sts l).
Proof.
  intros Hl. unfold ell_violation2. destruct (ell l) as [[e pj]|] eqn:HE.
  - unfold lx_err1. rewrite (proj1 (ell_data l e pj) HE), (projection_diff l e pj Hl HE). cbn [obind].
    f_equal. unfold kPositionWeight, vnorm2. ring.
  - rewrite (ell_none_err _ _ _ _ _ HE). apply (err1_spec (xl_base X) (pt_rows (xl_pt X))); try assumption; [apply base_wf|].
    apply (xw_plain X W l Hl HE).
Qed.
Lemma lx_err_sum_ok ls : (forall l, In l ls -> In l (xl_limits X)) ->
  lx_err_sum X p jp sts ls = Ok (rsum (map (fun l => lweight (fl_limit l) * ell_violation2 X (projection sts) p jp sts l) ls)).
Proof.
  induction ls as [|l ls IH]; intros H; [reflexivity|]. cbn [lx_err_sum map rsum].
  rewrite lx_err1_ok by (apply H; left; reflexivity). cbn [obind].
  rewrite IH by (intros; apply H; right; assumption). reflexivity.
Qed.
Lemma lx_error_ok : lx_error X p jp sts = Ok (xl_penalty X (projection sts) p jp sts).
Proof.
  unfold lx_error. rewrite Ljp, (xw_pt X W), Nat.mul_comm, Nat.eqb_refl. cbn [check obind].
  rewrite lx_err_sum_ok by auto. cbn [obind]. unfold xl_penalty, kLimitWeight. f_equal. ring.
Qed.

Lemma lx_inside_zero l : In l (xl_limits X) -> (ell l <> None -> inverse_maps l) ->
  0 <= ell_violation2 X (projection sts) p jp sts l /\
  (ell_violation2 X (projection sts) p jp sts l = 0 <-> xl_inside X p jp sts l).
Proof.
  intros Hl I. unfold ell_violation2, xl_inside. destruct (ell l) as [[e pj]|] eqn:HE.
  - specialize (I ltac:(discriminate)).
    destruct (ell_states l e pj Hl HE) as (sp & se & E1 & E2 & E3).
    pose proof (diff_zero sts l e pj se HE E2 E3 I) as Q.
    assert (PE : projection sts l = ell_image sts l (normalized (unit_pos sts l se))) by (unfold projection; rewrite HE, E2; reflexivity).
    rewrite PE. set (d := vsub _ _) in *. pose proof (vnorm2_pos d). split; [nra|]. rewrite <- Q. split.
    + intros Z. apply vnorm2_zero. nra.
    + intros ->. unfold vnorm2, vdot; cbn. ring.
  - split; [apply violation2_nonneg|].
    apply (violation2_zero (xl_base X) (pt_rows (xl_pt X))). apply (xw_plain X W l Hl HE).
Qed.
End At.

(** ** Along one model parameter *)

Section Path.
Context (p : list R) (i : nat) (q : R -> list R) (sts : R -> list jstate)
  (Lp : length p = pt_cols (xl_pt X)) (Hi : (i < pt_cols (xl_pt X))%nat) (EN : xl_enabled X i = true)
  (Hq : forall t, pt_apply (xl_pt X) (set_nth p i t) = Ok (q t))
  (Hs : forall t, fk (xl_sk X) (q t) = Ok (sts t)).

Local Notation t0 := (nth i p 0).
Local Notation C := (fun r => ent_coeff (pt_entries (xl_pt X)) r i).

Local Notation E := (CFn (xl_sk X) (xl_pt X) 0 (xl_active X) (xl_enabled X) (Loss 2 1 TL2) [] 0 0).

Lemma path_state t : state_of (cf_sk E) (cf_pt E) (set_nth p i t) = Ok (sts t).
Proof. unfold state_of. cbn [cf_sk cf_pt]. rewrite Hq. cbn [obind]. apply Hs. Qed.
Lemma path_states t : fk_states (xl_sk X) (q t) (sts t).
Proof. apply (fk_inv _ _ _ V (Hs t)). Qed.
Lemma path_qlen t : length (q t) = pt_rows (xl_pt X).
Proof. apply (pt_apply_length _ _ _ WP (Hq t)). Qed.

Lemma C_inactive0 : inactive0 (xl_active X) C.
Proof.
  intros r Hr. unfold ent_coeff. apply rsum_map_zero. intros e He.
  destruct (Nat.eqb_spec (erow e) r) as [E1|]; [|reflexivity].
  destruct (Nat.eqb_spec (ecol e) i) as [E2|]; [|reflexivity].
  exfalso. pose proof (xw_active X W e He) as Q. rewrite E1, E2 in Q. rewrite Q in Hr by exact EN. discriminate.
Qed.

Lemma still_C e ch a : does_not_move (xl_pt X) (xl_sk X) i e -> chain (xl_sk X) e ch -> In a ch -> still C a.
Proof.
  intros D Hc Ha k Hk. unfold ent_coeff. apply rsum_map_zero. intros en Hen.
  destruct (Nat.eqb_spec (erow en) (7 * a + k)) as [E1|]; [|reflexivity].
  destruct (Nat.eqb_spec (ecol en) i) as [E2|]; [|reflexivity]. apply (D ch a k en); assumption.
Qed.

Lemma q_same r t : C r = 0 -> (forall en, In en (pt_entries (xl_pt X)) -> erow en = r -> ecol en = i -> eval en = 0) ->
  nth r (q t) 0 = nth r (q t0) 0.
Proof.
  intros _ Z.
  assert (EQ : forall t, q t = vadd_list (mat_vec (xl_pt X) (set_nth p i t)) (pt_offsets (xl_pt X))).
  { intros u. specialize (Hq u). unfold pt_apply in Hq.
    rewrite set_nth_length, Lp, Nat.eqb_refl, (wf_offsets _ WP), Nat.eqb_refl in Hq. cbn in Hq. congruence. }
  rewrite !EQ. destruct (Nat.lt_ge_cases r (pt_rows (xl_pt X))) as [Hr|Hr].
  - rewrite !vadd_list_nth, !mat_vec_nth by (rewrite ?mat_vec_length, ?(wf_offsets _ WP); auto).
    f_equal. unfold row_dot. apply rsum_map_ext. intros en Hen.
    destruct (Nat.eqb_spec (erow en) r) as [Er|]; [|reflexivity].
    rewrite !set_nth_nth by lia. destruct (Nat.eqb_spec (ecol en) i) as [Ei|]; [|reflexivity].
    rewrite (Z en Hen Er Ei). ring.
  - rewrite !nth_overflow; [reflexivity| |]; rewrite vadd_list_length, mat_vec_length; lia.
Qed.
Lemma fixed_joint e ch t : does_not_move (xl_pt X) (xl_sk X) i e -> chain (xl_sk X) e ch ->
  nth_error (sts t) e = nth_error (sts t0) e.
Proof.
  intros D Hc. apply (chain_same _ _ _ _ _ e ch (path_states t) (path_states t0) Hc). intros a Ha.
  unfold jparam_at. f_equal; (apply q_same; [apply (still_C e ch a D Hc Ha); lia|]; intros en Hen Er Ec; refine (D ch a _ en Hc Ha _ Hen Er Ec); lia).
Qed.

Lemma point_derive l e pj ch : In l (xl_limits X) -> ell l = Some (e, pj) -> chain (xl_sk X) pj ch ->
  is_vderive (fun t => limited_point (sts t) l) t0 (chain_vel (sts t0) C ch true (limited_point (sts t0) l)).
Proof.
  intros Hl HE Hc. destruct (xw_ell X W l e pj Hl HE) as [_ H2].
  assert (HSx : forall t, exists s, nth_error (sts t) pj = Some s).
  { intros t. destruct (nth_error (sts t) pj) as [s|] eqn:E1; [eauto|]. apply nth_error_None in E1. rewrite (proj1 (path_states t)) in E1. lia. }
  set (S := fun t => match nth_error (sts t) pj with Some s => s | None => JS mid tf_id tf_id mid mid end).
  assert (HSt : forall t, nth_error (sts t) pj = Some (S t)) by (intros t; unfold S; destruct (HSx t) as [s ->]; reflexivity).
  pose proof (point_vel E V U WP p i sts Lp Hi path_state (Constr pj 0 (CPosition vzero vzero)) S ch Hc HSt (fl_offset l)) as PV.
  assert (A : forall t, act (S t) (fl_offset l) = limited_point (sts t) l).
  { intros t. rewrite act_point by (eapply (js_linear_state _ _ _ _ _ (path_states t)); apply HSt).
    unfold limited_point, world_point. rewrite HE, HSt. reflexivity. }
  rewrite A in PV. eapply vd_ext; [intros t; apply A|]. exact PV.
Qed.

Lemma dist_frozen l e pj ch y : In l (xl_limits X) -> ell l = Some (e, pj) -> chain (xl_sk X) pj ch ->
  is_derive (fun t => vnorm2 (vsub (limited_point (sts t) l) y)) t0
    (2 * vdot (vsub (limited_point (sts t0) l) y) (chain_vel (sts t0) C ch true (limited_point (sts t0) l))).
Proof.
  intros Hl HE Hc. pose proof (point_derive l e pj ch Hl HE Hc) as D.
  assert (DV : is_vderive (fun t => vsub (limited_point (sts t) l) y) t0
     (vsub (chain_vel (sts t0) C ch true (limited_point (sts t0) l)) vzero)).
  { apply (vd_sub (fun t => limited_point (sts t) l) (fun _ => y)); [exact D|apply vd_const]. }
  unfold vnorm2. eapply d_eq; [apply (vd_dot _ _ _ _ _ DV DV)|]. cbv beta.
  generalize (chain_vel (sts t0) C ch true (limited_point (sts t0) l)). intros v.
  generalize (limited_point (sts t0) l). intros x. destruct v, x, y. unfold vdot, vsub; cbn. ring.
Qed.

Lemma dist_sphere l e pj ch : In l (xl_limits X) -> ell l = Some (e, pj) -> chain (xl_sk X) pj ch ->
  inverse_maps l -> sphere l -> ~ at_centre (sts t0) l -> does_not_move (xl_pt X) (xl_sk X) i e ->
  is_derive (fun t => vnorm2 (vsub (limited_point (sts t) l) (projection (sts t) l))) t0
    (2 * vdot (vsub (limited_point (sts t0) l) (projection (sts t0) l))
           (chain_vel (sts t0) C ch true (limited_point (sts t0) l))).
Proof.
  intros Hl HE Hc I [r2 SPH] NC DM. pose proof (point_derive l e pj ch Hl HE Hc) as D.
  destruct (xw_ell X W l e pj Hl HE) as [He _]. destruct (chain_exists _ V e He) as [che Hce].
  destruct (ell_states (q t0) (sts t0) (path_states t0) l e pj Hl HE) as (sp & se & E1 & E2 & E3).
  assert (ES : forall t, nth_error (sts t) e = Some se) by (intros t; rewrite (fixed_joint e che t DM Hce); exact E2).
  clear sp E1.
  set (x := fun t => limited_point (sts t) l) in *.
  set (v := chain_vel (sts t0) C ch true (limited_point (sts t0) l)) in *.
  set (u := fun t => unit_pos (sts t) l se).
  set (TL := tf_linear (js_world se)). set (AL := alin (fl_map l)).
  set (u' := mvec (alin (fl_inv l)) (mvec (tf_linear (tf_inv (js_world se))) v)).
  assert (XI : forall t, x t = tf_point (js_world se) (aff_point (fl_map l) (u t))).
  { intros t. unfold x, u. rewrite (unit_pos_image (sts t) l e pj se HE (ES t) E3 I) at 1.
    rewrite (image_eq (sts t) l e pj se HE (ES t)). reflexivity. }
  assert (PJ : forall t, projection (sts t) l = tf_point (js_world se) (aff_point (fl_map l) (normalized (u t)))).
  { intros t. unfold projection, u. rewrite HE, (ES t). apply (image_eq (sts t) l e pj se HE (ES t)). }
  assert (DF : forall t, vsub (x t) (projection (sts t) l) = mvec TL (mvec AL (vsub (u t) (normalized (u t))))).
  { intros t. rewrite PJ, XI, <- !tf_affine_point, aff_lin_sub, aff_lin_sub. reflexivity. }
  assert (VV : v = mvec TL (mvec AL u')).
  { unfold u', TL, AL. set (w := mvec (tf_linear (tf_inv (js_world se))) v).
    assert (A1 : mvec (alin (fl_map l)) (mvec (alin (fl_inv l)) w) = w).
    { rewrite <- (vsub_0_r w) at 1. rewrite <- aff_lin_sub, <- aff_lin_sub, !(proj2 I). apply vsub_0_r. }
    rewrite A1. unfold w. change (tf_linear (js_world se)) with (alin (tf_affine (js_world se))).
    change (tf_linear (tf_inv (js_world se))) with (alin (tf_affine (tf_inv (js_world se)))).
    rewrite <- (vsub_0_r v) at 2. rewrite <- aff_lin_sub, <- aff_lin_sub, !tf_affine_point, !tf_point_inv by exact E3.
    symmetry. apply vsub_0_r. }
  assert (DU : is_vderive u t0 u').
  { unfold u, unit_pos. eapply vd_ext.
    { intros t. symmetry. rewrite <- tf_affine_point. unfold aff_point. reflexivity. }
    eapply vd_eq.
    { apply vd_add; [apply vd_mvec; apply vd_add; [apply vd_mvec; exact D|apply vd_const]|apply vd_const]. }
    rewrite !vadd_0_r. reflexivity. }
  assert (KT : forall a b, vdot (mvec TL a) (mvec TL b) = scl (js_world se) * scl (js_world se) * vdot a b).
  { intros a b. unfold TL, tf_linear. rewrite !mvec_scale, !qmat_vec, vdot_scale_both, qrot_dot by apply E3. reflexivity. }
  assert (K : forall a b, vdot (mvec TL (mvec AL a)) (mvec TL (mvec AL b)) = scl (js_world se) * scl (js_world se) * r2 * vdot a b).
  { intros a b. rewrite KT. unfold AL. rewrite SPH. ring. }
  assert (NZ : u t0 <> vzero).
  { intros Z. apply NC. unfold at_centre. rewrite <- Z. apply (unit_pos_image (sts t0) l e pj se HE (ES t0) E3 I). }
  set (N := fun t => vdot (u t) (u t)).
  assert (NP : 0 < N t0).
  { destruct (Rle_lt_or_eq_dec _ _ (vnorm2_pos (u t0))) as [H|H]; [exact H|]. elim NZ. apply vnorm2_zero. congruence. }
  assert (DN : is_derive N t0 (2 * vdot (u t0) u')).
  { eapply d_eq; [apply (vd_dot _ _ _ _ _ DU DU)|]. destruct (u t0), u'; unfold vdot; cbn; ring. }
  assert (LOC : locally t0 (fun t => 0 < N t)).
  { apply (ex_derive_continuous N t0 (ex_intro _ _ DN) (fun y => 0 < y)). apply (open_gt 0 (N t0) NP). }
  set (kk := scl (js_world se) * scl (js_world se) * r2) in *.
  assert (SQ : forall t, 0 < N t -> vdot (vsub (u t) (normalized (u t))) (vsub (u t) (normalized (u t))) = N t - 2 * sqrt (N t) + 1).
  { intros t Ht. unfold normalized. change (vnorm2 (u t)) with (N t). destruct (Rltb_spec 0 (N t)); [|lra].
    pose proof (sqrt_lt_R0 _ Ht) as SP. pose proof (sqrt_sqrt _ (Rlt_le _ _ Ht)) as SS.
    assert (Q : vdot (vsub (u t) (vscale (/ sqrt (N t)) (u t))) (vsub (u t) (vscale (/ sqrt (N t)) (u t))) =
                (1 - / sqrt (N t)) * (1 - / sqrt (N t)) * N t).
    { unfold N. destruct (u t); unfold vdot; cbn; ring. }
    rewrite Q. revert SP SS. generalize (sqrt (N t)). intros s SP SS. rewrite <- SS. field. lra. }
  assert (IP : vdot (vsub (u t0) (normalized (u t0))) u' = vdot (u t0) u' - vdot (u t0) u' / sqrt (N t0)).
  { unfold normalized. change (vnorm2 (u t0)) with (N t0). destruct (Rltb_spec 0 (N t0)); [|lra].
    destruct (u t0), u'; unfold vdot; cbn. unfold Rdiv. ring. }
  apply (is_derive_ext_loc (fun t => kk * (N t - 2 * sqrt (N t) + 1))).
  { destruct LOC as [eps HH]. exists eps. intros y Hy. change (limited_point (sts y) l) with (x y). rewrite DF.
    unfold vnorm2. rewrite K, SQ by (apply HH; exact Hy). reflexivity. }
  change (limited_point (sts t0) l) with (x t0). rewrite DF, VV, K, IP.
  eapply d_eq.
  - apply d_scal. apply d_plus; [apply d_minus; [exact DN|apply d_scal; apply (is_derive_sqrt N t0 _ DN NP)]|apply d_const].
  - pose proof (sqrt_lt_R0 _ NP). field. lra.
Qed.

(** The ellipsoid moves without changing its size. *)
Lemma point_derive_at j ch y : (j < length (xl_sk X))%nat -> chain (xl_sk X) j ch ->
  is_vderive (fun t => world_point (sts t) j y) t0 (chain_vel (sts t0) C ch true (world_point (sts t0) j y)).
Proof.
  intros Hj Hc.
  assert (HSx : forall t, exists s, nth_error (sts t) j = Some s).
  { intros t. destruct (nth_error (sts t) j) as [s|] eqn:E1; [eauto|]. apply nth_error_None in E1. rewrite (proj1 (path_states t)) in E1. lia. }
  set (S := fun t => match nth_error (sts t) j with Some s => s | None => JS mid tf_id tf_id mid mid end).
  assert (HSt : forall t, nth_error (sts t) j = Some (S t)) by (intros t; unfold S; destruct (HSx t) as [s ->]; reflexivity).
  pose proof (point_vel E V U WP p i sts Lp Hi path_state (Constr j 0 (CPosition vzero vzero)) S ch Hc HSt y) as PV.
  assert (A : forall t, act (S t) y = world_point (sts t) j y).
  { intros t. rewrite act_point by (eapply (js_linear_state _ _ _ _ _ (path_states t)); apply HSt).
    unfold world_point. rewrite HSt. reflexivity. }
  rewrite A in PV. eapply vd_ext; [intros t; apply A|]. exact PV.
Qed.
Lemma scale_C e che : does_not_scale (xl_pt X) (xl_sk X) i e -> chain (xl_sk X) e che ->
  forall a, In a che -> C (7 * a + 6)%nat = 0.
Proof.
  intros D Hc a Ha. unfold ent_coeff. apply rsum_map_zero. intros en Hen.
  destruct (Nat.eqb_spec (erow en) (7 * a + 6)) as [E1|]; [|reflexivity].
  destruct (Nat.eqb_spec (ecol en) i) as [E2|]; [|reflexivity]. apply (D che a en); assumption.
Qed.

Lemma dist_carried l e pj che rest : In l (xl_limits X) -> ell l = Some (e, pj) ->
  chain (xl_sk X) e che -> chain (xl_sk X) pj (che ++ rest) ->
  inverse_maps l -> sphere l -> ~ at_centre (sts t0) l -> does_not_scale (xl_pt X) (xl_sk X) i e ->
  is_derive (fun t => vnorm2 (vsub (limited_point (sts t) l) (projection (sts t) l))) t0
    (2 * vdot (vsub (limited_point (sts t0) l) (projection (sts t0) l))
           (chain_vel (sts t0) C rest true (limited_point (sts t0) l))).
Proof.
  intros Hl HE Hce Hc I [r2 SPH] NC DS. pose proof (point_derive l e pj _ Hl HE Hc) as D.
  destruct (xw_ell X W l e pj Hl HE) as [He _].
  assert (ST : exists SE, forall t, nth_error (sts t) e = Some (SE t) /\ tf_ok (js_world (SE t))).
  { exists (fun t => match nth_error (sts t) e with Some s => s | None => JS mid tf_id tf_id mid mid end). intros t.
    destruct (ell_states (q t) (sts t) (path_states t) l e pj Hl HE) as (sp & se & E1 & E2 & E3). rewrite E2. split; [reflexivity|exact E3]. }
  destruct ST as [SE ST].
  assert (SC : forall t, scl (js_world (SE t)) = scl (js_world (SE t0))).
  { intros t. apply (chain_scale _ _ _ _ _ e che _ _ (path_states t) (path_states t0) Hce); [|apply ST|apply ST].
    intros a Ha. unfold jparam_at; cbn [jsc]. apply q_same; [apply (scale_C e che DS Hce a Ha)|].
    intros en Hen Er Ec. apply (DS che a en); assumption. }
  set (x := fun t => limited_point (sts t) l) in *.
  set (c := fun t => ell_image (sts t) l vzero).
  set (u := fun t => unit_pos (sts t) l (SE t)).
  set (AL := alin (fl_map l)).
  assert (IM : forall t w, ell_image (sts t) l w = tf_point (js_world (SE t)) (aff_point (fl_map l) w)).
  { intros t w. apply (image_eq (sts t) l e pj (SE t) HE (proj1 (ST t))). }
  assert (XI : forall t, x t = tf_point (js_world (SE t)) (aff_point (fl_map l) (u t))).
  { intros t. unfold x, u. rewrite (unit_pos_image (sts t) l e pj (SE t) HE (proj1 (ST t)) (proj2 (ST t)) I) at 1. apply IM. }
  assert (PJ : forall t, projection (sts t) l = tf_point (js_world (SE t)) (aff_point (fl_map l) (normalized (u t)))).
  { intros t. unfold projection, u. rewrite HE, (proj1 (ST t)). apply IM. }
  assert (SB : forall t a b, vsub (tf_point (js_world (SE t)) (aff_point (fl_map l) a)) (tf_point (js_world (SE t)) (aff_point (fl_map l) b))
     = mvec (tf_linear (js_world (SE t))) (mvec AL (vsub a b))).
  { intros t a b. rewrite <- !tf_affine_point, aff_lin_sub, aff_lin_sub. reflexivity. }
  set (kk := scl (js_world (SE t0)) * scl (js_world (SE t0)) * r2).
  assert (K : forall t a b, vdot (mvec (tf_linear (js_world (SE t))) (mvec AL a)) (mvec (tf_linear (js_world (SE t))) (mvec AL b)) = kk * vdot a b).
  { intros t a b. unfold tf_linear. rewrite !mvec_scale, !qmat_vec, vdot_scale_both, qrot_dot by apply (ST t).
    rewrite (SC t). unfold AL. rewrite SPH. unfold kk. ring. }
  assert (KP : 0 < kk).
  { assert (R2 : 0 < r2).
    { pose proof (SPH ex ex) as R. replace (vdot ex ex) with 1 in R by (unfold vdot; cbn; ring). rewrite Rmult_1_r in R.
      pose proof (vnorm2_pos (mvec AL ex)) as Q. unfold vnorm2 in Q. unfold AL in Q. rewrite R in Q.
      destruct (Rle_lt_or_eq_dec _ _ Q) as [H|H]; [exact H|]. exfalso.
      assert (Z : mvec AL ex = vzero) by (apply vnorm2_zero; unfold vnorm2, AL; rewrite R; congruence).
      assert (Z2 : ex = vzero).
      { rewrite <- (proj1 I ex). replace (aff_point (fl_map l) ex) with (aff_point (fl_map l) vzero); [apply (proj1 I)|].
        unfold aff_point. fold AL. rewrite Z. f_equal. destruct AL as [[] [] []]. unfold mvec, vadd, vscale, vzero; cbn. f_equal; ring. }
      apply (f_equal vx) in Z2. cbn in Z2. lra. }
    unfold kk. pose proof (proj2 (proj2 (ST t0))) as S0. apply Rmult_lt_0_compat; [|exact R2]. nra. }
  set (N := fun t => vdot (u t) (u t)).
  assert (XC : forall t, vsub (x t) (c t) = mvec (tf_linear (js_world (SE t))) (mvec AL (u t))).
  { intros t. unfold c. rewrite IM, XI, SB, vsub_0_r. reflexivity. }
  assert (NM : forall t, N t = / kk * vdot (vsub (x t) (c t)) (vsub (x t) (c t))).
  { intros t. rewrite XC, K. unfold N. field. lra. }
  assert (DC : is_vderive c t0 (chain_vel (sts t0) C che true (c t0))).
  { assert (CE : forall t, c t = world_point (sts t) e (aff_point (fl_map l) vzero)) by (intros t; unfold c, ell_image; rewrite HE; reflexivity).
    rewrite CE. eapply vd_ext; [intros t; symmetry; apply CE|]. apply point_derive_at; assumption. }
  set (vr := chain_vel (sts t0) C rest true (limited_point (sts t0) l)).
  assert (DN : is_derive N t0 (/ kk * (2 * vdot (vsub (x t0) (c t0)) vr))).
  { apply (d_ext (fun t => / kk * vdot (vsub (x t) (c t)) (vsub (x t) (c t)))); [intros t; symmetry; apply NM|].
    apply d_scal. pose proof (vd_sub x c _ _ _ D DC) as DX. eapply d_eq; [apply (vd_dot _ _ _ _ _ DX DX)|]. cbv beta.
    rewrite chain_vel_app. fold vr. change (limited_point (sts t0) l) with (x t0).
    pose proof (rigid_chain (sts t0) C che (x t0) (c t0) (scale_C e che DS Hce)) as RG.
    revert RG. generalize (chain_vel (sts t0) C che true (x t0)), (chain_vel (sts t0) C che true (c t0)), vr, (x t0), (c t0).
    intros v1 v2 v3 v4 v5. destruct v1, v2, v3, v4, v5. unfold vdot, vsub, vadd; cbn. lra. }
  assert (NZ : u t0 <> vzero).
  { intros Z. apply NC. unfold at_centre. change (limited_point (sts t0) l) with (x t0). rewrite IM, XI, Z. reflexivity. }
  assert (NP : 0 < N t0).
  { destruct (Rle_lt_or_eq_dec _ _ (vnorm2_pos (u t0))) as [H|H]; [exact H|]. elim NZ. apply vnorm2_zero. congruence. }
  assert (LOC : locally t0 (fun t => 0 < N t)).
  { apply (ex_derive_continuous N t0 (ex_intro _ _ DN) (fun y => 0 < y)). apply (open_gt 0 (N t0) NP). }
  assert (SQ : forall t, 0 < N t -> vdot (vsub (u t) (normalized (u t))) (vsub (u t) (normalized (u t))) = N t - 2 * sqrt (N t) + 1).
  { intros t Ht. unfold normalized. change (vnorm2 (u t)) with (N t). destruct (Rltb_spec 0 (N t)); [|lra].
    pose proof (sqrt_lt_R0 _ Ht) as SP. pose proof (sqrt_sqrt _ (Rlt_le _ _ Ht)) as SS.
    assert (Q : vdot (vsub (u t) (vscale (/ sqrt (N t)) (u t))) (vsub (u t) (vscale (/ sqrt (N t)) (u t))) =
                (1 - / sqrt (N t)) * (1 - / sqrt (N t)) * N t).
    { unfold N. destruct (u t); unfold vdot; cbn; ring. }
    rewrite Q. revert SP SS. generalize (sqrt (N t)). intros s SP SS. rewrite <- SS. field. lra. }
  assert (DP : vsub (x t0) (projection (sts t0) l) = vscale (1 - / sqrt (N t0)) (vsub (x t0) (c t0))).
  { rewrite XC, PJ, XI, SB. unfold normalized. change (vnorm2 (u t0)) with (N t0). destruct (Rltb_spec 0 (N t0)); [|lra].
    generalize (/ sqrt (N t0)), (u t0), (tf_linear (js_world (SE t0))), AL. intros k w m1 m2.
    destruct w, m1 as [[] [] []], m2 as [[] [] []]. unfold mvec, vsub, vscale, vadd; cbn. f_equal; ring. }
  apply (is_derive_ext_loc (fun t => kk * (N t - 2 * sqrt (N t) + 1))).
  { destruct LOC as [eps HH]. exists eps. intros y Hy. change (limited_point (sts y) l) with (x y). rewrite XI, PJ, SB.
    unfold vnorm2. rewrite K, SQ by (apply HH; exact Hy). reflexivity. }
  change (limited_point (sts t0) l) with (x t0) in *. rewrite DP.
  eapply d_eq.
  - apply d_scal. apply d_plus; [apply d_minus; [exact DN|apply d_scal; apply (is_derive_sqrt N t0 _ DN NP)]|apply d_const].
  - pose proof (sqrt_lt_R0 _ NP). revert H. generalize (sqrt (N t0)). intros s H.
    replace (vdot (vscale (1 - / s) (vsub (x t0) (c t0))) vr) with ((1 - / s) * vdot (vsub (x t0) (c t0)) vr)
      by (destruct (vsub (x t0) (c t0)), vr; unfold vdot; cbn; ring).
    generalize (vdot (vsub (x t0) (c t0)) vr). intros dd. field. lra.
Qed.

(** The conditions on an ellipsoid limit under which it is differentiated correctly. *)
Definition round (l : flimit) : Prop := ell l <> None -> sphere l.
Definition stays (l : flimit) : Prop := forall e pj, ell l = Some (e, pj) -> does_not_move (xl_pt X) (xl_sk X) i e.
Definition fair (l : flimit) : Prop :=
  forall e pj, ell l = Some (e, pj) -> inverse_maps l /\ ~ at_centre (sts t0) l /\ steady (xl_pt X) (xl_sk X) i e pj.

Lemma limit_velocity l e pj : In l (xl_limits X) -> ell l = Some (e, pj) -> inverse_maps l -> ~ at_centre (sts t0) l ->
  steady (xl_pt X) (xl_sk X) i e pj ->
  exists ts v, ell_terms X (sts t0) l = Ok ts /\
    (forall g, linear g -> rsum (map (fun x => g (snd x) * C (fst x)) ts) = g v) /\
    (does_not_move (xl_pt X) (xl_sk X) i e -> forall y,
       is_derive (fun t => vnorm2 (vsub (limited_point (sts t) l) y)) t0 (2 * vdot (vsub (limited_point (sts t0) l) y) v)) /\
    (sphere l -> is_derive (fun t => vnorm2 (vsub (limited_point (sts t) l) (projection (sts t) l))) t0
       (2 * vdot (vsub (limited_point (sts t0) l) (projection (sts t0) l)) v)).
Proof.
  intros Hl HE I NC SD. unfold ell_terms. rewrite (proj1 (ell_data l e pj) HE).
  destruct (ell_states (q t0) (sts t0) (path_states t0) l e pj Hl HE) as (sp & se & E1 & E2 & E3).
  unfold rd. rewrite E1. cbn [obind]. rewrite tf_affine_point, <- (limited_eq (sts t0) l e pj sp HE E1).
  destruct (xw_ell X W l e pj Hl HE) as [_ Hpj]. destruct (chain_exists _ V pj Hpj) as [ch Hc].
  pose proof (chain_length _ _ _ V Hc) as CL.
  assert (M : does_not_move (xl_pt X) (xl_sk X) i e -> exists ts, ell_walk (length (xl_sk X)) (xl_sk X) (sts t0) e
      (ell_dofs (xl_active X) (limited_point (sts t0) l)) (Some pj) = Ok ts /\
      forall g, linear g -> rsum (map (fun x => g (snd x) * C (fst x)) ts) = g (chain_vel (sts t0) C ch true (limited_point (sts t0) l))).
  { intros DM. destruct (ell_walk_ok (xl_sk X) (sts t0) (xl_active X) (limited_point (sts t0) l) e V (proj1 (path_states t0))
       ltac:(rewrite (xw_active_len X W), (xw_pt X W); lia) pj ch Hc (length (xl_sk X)) ltac:(lia)) as [ts [T1 T2]].
    exists ts. split; [exact T1|]. intros g L. apply (T2 g C L C_inactive0). intros ch' a Hc' Ha. eapply still_C; eassumption. }
  destruct SD as [DM|[[ch' [Hc' Hin]] DS]].
  - destruct (M DM) as [ts [T1 T2]]. exists ts, (chain_vel (sts t0) C ch true (limited_point (sts t0) l)).
    split; [exact T1|]. split; [exact T2|]. split.
    + intros _ y. apply (dist_frozen l e pj ch y Hl HE Hc).
    + intros SP. apply (dist_sphere l e pj ch Hl HE Hc I SP NC DM).
  - rewrite (chain_unique _ _ _ Hc' _ Hc) in Hin.
    destruct (ell_walk_below (xl_sk X) (sts t0) (xl_active X) (limited_point (sts t0) l) e V (proj1 (path_states t0))
       ltac:(rewrite (xw_active_len X W), (xw_pt X W); lia) pj ch Hc Hin (length (xl_sk X)) ltac:(lia))
      as (che & rest & C1 & C2 & ts & T1 & T2).
    exists ts, (chain_vel (sts t0) C rest true (limited_point (sts t0) l)).
    split; [exact T1|]. split; [intros g L; apply (T2 g C L C_inactive0)|]. split.
    + intros DM y. replace (chain_vel (sts t0) C rest true (limited_point (sts t0) l)) with (chain_vel (sts t0) C ch true (limited_point (sts t0) l)).
      * apply (dist_frozen l e pj ch y Hl HE Hc).
      * rewrite C2, chain_vel_app, (still_chain_vel _ _ che), vadd_0_l; [reflexivity|].
        intros a Ha. apply (still_C e che a DM C1 Ha).
    + intros SP. subst ch. apply (dist_carried l e pj che rest Hl HE C1 Hc I SP NC DS).
Qed.

Lemma violation_derive l Y : In l (xl_limits X) -> fair l -> away_from_range_ends p (ldata (fl_limit l)) ->
  (ell l <> None -> radial_point (sts t0) l (Y l)) ->
  exists D,
    (stays l -> is_derive (fun t => ell_violation2 X Y (set_nth p i t) (q t) (sts t) l) t0 D) /\
    (round l -> is_derive (fun t => ell_violation2 X (projection (sts t)) (set_nth p i t) (q t) (sts t) l) t0 D) /\
    match ell l with
    | Some _ => exists ts v, ell_terms X (sts t0) l = Ok ts /\
        (forall g, linear g -> rsum (map (fun x => g (snd x) * C (fst x)) ts) = g v) /\
        D = / 10000 * (2 * vdot (vsub (limited_point (sts t0) l) (projection (sts t0) l)) v)
    | None => D = violation2_partial (xl_enabled X) (xl_active X) (pt_entries (xl_pt X)) p (q t0) i (ldata (fl_limit l))
    end.
Proof.
  intros Hl FA AW HY. unfold ell_violation2, round, stays. destruct (ell l) as [[e pj]|] eqn:HE.
  - destruct (FA e pj HE) as (I & NC & DM). specialize (HY ltac:(discriminate)).
    assert (YE : Y l = projection (sts t0) l).
    { apply (radial_projection (q t0) (sts t0) (path_states t0) l (Y l) e pj Hl HE I HY). }
    destruct (limit_velocity l e pj Hl HE I NC DM) as (ts & v & T1 & T2 & T3 & T4).
    eexists. split; [|split].
    + intros ST. apply d_scal. apply (T3 (ST e pj eq_refl) (Y l)).
    + intros RD. rewrite YE. apply d_scal. apply (T4 (RD ltac:(discriminate))).
    + exists ts, v. split; [exact T1|]. split; [exact T2|]. rewrite YE. reflexivity.
  - eexists. assert (D : is_derive (fun t => violation2 (xl_enabled X) (xl_active X) (set_nth p i t) (q t) (ldata (fl_limit l))) t0
      (violation2_partial (xl_enabled X) (xl_active X) (pt_entries (xl_pt X)) p (q t0) i (ldata (fl_limit l)))).
    { apply (d_violation2 p i ltac:(lia) _ _ _ q); [|exact AW]. apply (apply_derive (xl_pt X) p i q WP Lp Hi Hq). }
    split; [intros _; exact D|]. split; [intros _; exact D|]. reflexivity.
Qed.

Lemma lx_grad1_ok l Y : In l (xl_limits X) -> fair l -> away_from_range_ends p (ldata (fl_limit l)) ->
  unit_weight_if_two_params (fl_limit l) -> (ell l <> None -> radial_point (sts t0) l (Y l)) ->
  exists er incs D, lx_grad1 X p (q t0) (sts t0) l = Ok (er, incs) /\
    (forall k v, In (k, v) incs -> (k < pt_cols (xl_pt X))%nat) /\
    (counted (xl_enabled X) (ldata (fl_limit l)) ->
       er = 10 * xl_weight X * (lweight (fl_limit l) * ell_violation2 X Y p (q t0) (sts t0) l)) /\
    dsum incs i = 10 * xl_weight X * (lweight (fl_limit l) * D) /\
    (stays l -> is_derive (fun t => ell_violation2 X Y (set_nth p i t) (q t) (sts t) l) t0 D) /\
    (round l -> is_derive (fun t => ell_violation2 X (projection (sts t)) (set_nth p i t) (q t) (sts t) l) t0 D).
Proof.
  intros Hl FA AW UW HY. destruct (violation_derive l Y Hl FA AW HY) as (D & D1 & D2 & D3).
  destruct (ell l) as [[e pj]|] eqn:HE.
  - destruct (FA e pj HE) as (I & NC & DM). specialize (HY ltac:(discriminate)).
    assert (YE : Y l = projection (sts t0) l).
    { apply (radial_projection (q t0) (sts t0) (path_states t0) l (Y l) e pj Hl HE I HY). }
    destruct D3 as (ts & v & T1 & T2 & D3).
    unfold lx_grad1. rewrite (proj1 (ell_data l e pj) HE).
    rewrite (projection_diff (q t0) (sts t0) (path_states t0) l e pj Hl HE). cbn [obind]. rewrite T1. cbn [obind].
    eexists; eexists; exists D. split; [reflexivity|]. split; [|split; [|split; [|split; assumption]]].
    + intros k vv Hin. destruct (spread_in _ _ _ _ _ Hin) as [en [Hen <-]]. apply (wf_entries _ WP en Hen).
    + intros _. unfold ell_violation2. rewrite HE, YE. unfold kPositionWeight, kLimitWeight, vnorm2. ring.
    + rewrite dsum_spread.
      rewrite (T2 (fun d => vdot (vsub (limited_point (sts t0) l) (projection (sts t0) l)) d *
           (2 * kPositionWeight * lweight (fl_limit l) * (kLimitWeight * xl_weight X)))).
      * rewrite D3. unfold kPositionWeight, kLimitWeight. ring.
      * split; intros; unfold vdot; cbn; ring.
  - rewrite (ell_none_grad _ _ _ _ _ HE).
    destruct (grad1_spec (xl_base X) (pt_rows (xl_pt X)) p (q t0) (fl_limit l) i base_wf Lp (path_qlen t0)
       (xw_plain X W l Hl HE) EN UW) as (er & incs & G1 & G2 & G3 & G4).
    exists er, incs, D. split; [exact G1|]. split; [exact G2|]. split; [|split; [|split; assumption]].
    + intros CT. unfold ell_violation2. rewrite HE. apply G3, CT.
    + rewrite D3. exact G4.
Qed.

Lemma lx_grad_loop_ok Y ls : (forall l, In l ls -> In l (xl_limits X)) ->
  (forall l, In l ls -> fair l /\ away_from_range_ends p (ldata (fl_limit l)) /\
     unit_weight_if_two_params (fl_limit l) /\ (ell l <> None -> radial_point (sts t0) l (Y l))) ->
  forall g, length g = pt_cols (xl_pt X) ->
  exists er g' D, lx_grad_loop X p (q t0) (sts t0) ls g = Ok (er, g') /\ length g' = length g /\
    nth i g' 0 - nth i g 0 = 10 * xl_weight X * D /\
    ((forall l, In l ls -> counted (xl_enabled X) (ldata (fl_limit l))) ->
       er = 10 * xl_weight X * rsum (map (fun l => lweight (fl_limit l) * ell_violation2 X Y p (q t0) (sts t0) l) ls)) /\
    ((forall l, In l ls -> stays l) ->
     is_derive (fun t => rsum (map (fun l => lweight (fl_limit l) * ell_violation2 X Y (set_nth p i t) (q t) (sts t) l) ls)) t0 D) /\
    ((forall l, In l ls -> round l) ->
     is_derive (fun t => rsum (map (fun l => lweight (fl_limit l) * ell_violation2 X (projection (sts t)) (set_nth p i t) (q t) (sts t) l) ls)) t0 D).
Proof.
  intros HI. induction ls as [|l ls IH]; intros H g Lg.
  - exists 0, g, 0. cbn [lx_grad_loop map rsum]. split; [reflexivity|]. split; [reflexivity|]. split; [ring|].
    split; [intros; ring|]. split; intros _; apply d_const.
  - destruct (H l (or_introl eq_refl)) as (FA & AW & UW & HY).
    destruct (lx_grad1_ok l Y (HI l (or_introl eq_refl)) FA AW UW HY) as (er & incs & D & G1 & G2 & G3 & G4 & G5 & G6).
    cbn [lx_grad_loop]. rewrite G1. cbn [obind].
    destruct (add_all_ok incs g) as (g1 & A1 & A2 & A3); [intros; rewrite Lg; eapply G2; eassumption|].
    rewrite A1. cbn [obind].
    destruct (IH (fun a Ha => HI a (or_intror Ha)) (fun a Ha => H a (or_intror Ha)) g1 ltac:(congruence)) as (er2 & g2 & D' & R1 & R2 & R3 & R4 & R5 & R6).
    rewrite R1. cbn [obind]. exists (er + er2), g2, (lweight (fl_limit l) * D + D'). split; [reflexivity|].
    split; [congruence|]. split; [|split; [|split]].
    + replace (nth i g2 0 - nth i g 0) with ((nth i g2 0 - nth i g1 0) + (nth i g1 0 - nth i g 0)) by ring.
      rewrite R3, A3. destruct (Nat.ltb_spec i (length g)); [|lia]. rewrite G4. ring.
    + intros CT. rewrite G3 by (apply CT; left; reflexivity). rewrite R4 by (intros; apply CT; right; assumption).
      cbn [map rsum]. ring.
    + intros ST. cbn [map rsum]. apply d_plus; [apply d_scal; apply G5, ST; left; reflexivity|apply R5; intros; apply ST; right; assumption].
    + intros RD. cbn [map rsum]. apply d_plus; [apply d_scal; apply G6, RD; left; reflexivity|apply R6; intros; apply RD; right; assumption].
Qed.

(** ** The Jacobian *)

Lemma lx_jac1_ok l Y : In l (xl_limits X) -> fair l -> away_from_range_ends p (ldata (fl_limit l)) ->
  jac_conditions (fl_limit l) -> 0 <= xl_weight X -> (ell l <> None -> radial_point (sts t0) l (Y l)) ->
  exists er rows D, lx_jac1 X p (q t0) (sts t0) l = Ok (er, rows) /\
    length rows = lim_jacobian_size [fl_limit l] /\
    (forall row, In row rows -> length (fst row) = pt_cols (xl_pt X)) /\
    er = 10 * xl_weight X * (lweight (fl_limit l) * ell_violation2 X Y p (q t0) (sts t0) l) /\
    rsum (map (fun row => snd row * snd row) rows) = er /\
    2 * jt_r rows i = 10 * xl_weight X * (lweight (fl_limit l) * D) /\
    (stays l -> is_derive (fun t => ell_violation2 X Y (set_nth p i t) (q t) (sts t) l) t0 D) /\
    (round l -> is_derive (fun t => ell_violation2 X (projection (sts t)) (set_nth p i t) (q t) (sts t) l) t0 D).
Proof.
  intros Hl FA AW JC HW HY. destruct (violation_derive l Y Hl FA AW HY) as (D & D1 & D2 & D3).
  destruct (ell l) as [[e pj]|] eqn:HE.
  - destruct (FA e pj HE) as (I & NC & DM). specialize (HY ltac:(discriminate)).
    assert (YE : Y l = projection (sts t0) l).
    { apply (radial_projection (q t0) (sts t0) (path_states t0) l (Y l) e pj Hl HE I HY). }
    destruct D3 as (ts & v & T1 & T2 & D3).
    unfold lx_jac1. rewrite (proj1 (ell_data l e pj) HE).
    rewrite (projection_diff (q t0) (sts t0) (path_states t0) l e pj Hl HE). cbn [obind].
    rewrite Lp, Nat.eqb_refl. cbn [check obind]. rewrite T1. cbn [obind]. cbv zeta.
    assert (HS : sqrt (kLimitWeight * kPositionWeight * xl_weight X * lweight (fl_limit l)) *
                 sqrt (kLimitWeight * kPositionWeight * xl_weight X * lweight (fl_limit l)) =
                 10 * / 10000 * xl_weight X * lweight (fl_limit l)).
    { unfold kLimitWeight, kPositionWeight. apply sqrt_sqrt. apply Rmult_le_pos; [lra|apply JC]. }
    revert HS. generalize (sqrt (kLimitWeight * kPositionWeight * xl_weight X * lweight (fl_limit l))). intros w HS.
    set (d := vsub (limited_point (sts t0) l) (projection (sts t0) l)) in *.
    assert (AA : forall f, linear f -> exists row, add_all (repeat 0 (pt_cols (xl_pt X))) (spread (pt_entries (xl_pt X)) ts f) = Ok row /\
        length row = pt_cols (xl_pt X) /\ nth i row 0 = f v).
    { intros f Lf. destruct (add_all_ok (spread (pt_entries (xl_pt X)) ts f) (repeat 0 (pt_cols (xl_pt X)))) as (row & A1 & A2 & A3).
      - intros k x Hin. rewrite repeat_length. destruct (spread_in _ _ _ _ _ Hin) as [en [Hen <-]]. apply (wf_entries _ WP en Hen).
      - exists row. split; [exact A1|]. rewrite repeat_length in A2, A3. split; [exact A2|]. rewrite A3, zrow_nth.
        destruct (Nat.ltb_spec i (pt_cols (xl_pt X))); [|lia]. rewrite dsum_spread, (T2 f Lf). ring. }
    destruct (AA (fun d => vx d * w)) as (rx & X1 & X2 & X3); [split; intros; cbn; ring|].
    destruct (AA (fun d => vy d * w)) as (ry & Y1 & Y2 & Y3); [split; intros; cbn; ring|].
    destruct (AA (fun d => vz d * w)) as (rz & Z1 & Z2 & Z3); [split; intros; cbn; ring|].
    rewrite X1, Y1, Z1. cbn [obind]. eexists; eexists; exists D. split; [reflexivity|].
    split; [unfold lim_jacobian_size; cbn [fold_right]; rewrite (proj1 (ell_data l e pj) HE); reflexivity|].
    split; [intros row [<-|[<-|[<-|[]]]]; assumption|].
    split; [unfold ell_violation2; rewrite HE, YE; fold d; unfold vnorm2; rewrite HS; ring|].
    split; [cbn [map rsum snd]; unfold vdot; ring|].
    split; [|split; assumption]. unfold jt_r. cbn [map rsum fst snd]. rewrite X3, Y3, Z3, D3. unfold vdot. ring [HS].
  - rewrite (ell_none_jac _ _ _ _ _ HE).
    destruct (jac1_spec (xl_base X) (pt_rows (xl_pt X)) p (q t0) (fl_limit l) i base_wf Lp (path_qlen t0)
       (xw_plain X W l Hl HE) EN Hi JC HW) as (er & rows & J1 & J2 & J3 & J4 & J5 & J6).
    exists er, rows, D. split; [exact J1|]. split.
    { rewrite J2. unfold lim_jacobian_size; cbn [fold_right]. revert HE. unfold ell. destruct (ldata (fl_limit l)); try reflexivity. discriminate. }
    split; [exact J3|]. split; [unfold ell_violation2; rewrite HE; exact J4|]. split; [exact J5|]. split; [|split; assumption].
    rewrite D3. exact J6.
Qed.

Lemma jac_size_cons l ls : lim_jacobian_size (l :: ls) = (lim_jacobian_size [l] + lim_jacobian_size ls)%nat.
Proof. unfold lim_jacobian_size. cbn [fold_right]. destruct (ldata l); cbn; reflexivity. Qed.
Lemma jt_r_app a b k : jt_r (a ++ b) k = jt_r a k + jt_r b k.
Proof. unfold jt_r. rewrite map_app. apply rsum_app. Qed.

Lemma lx_jac_loop_ok Y ls : 0 <= xl_weight X -> (forall l, In l ls -> In l (xl_limits X)) ->
  (forall l, In l ls -> fair l /\ away_from_range_ends p (ldata (fl_limit l)) /\
     jac_conditions (fl_limit l) /\ (ell l <> None -> radial_point (sts t0) l (Y l))) ->
  exists er rows D, lx_jac_loop X p (q t0) (sts t0) ls = Ok (er, rows) /\
    length rows = lim_jacobian_size (map fl_limit ls) /\
    (forall row, In row rows -> length (fst row) = pt_cols (xl_pt X)) /\
    er = 10 * xl_weight X * rsum (map (fun l => lweight (fl_limit l) * ell_violation2 X Y p (q t0) (sts t0) l) ls) /\
    rsum (map (fun row => snd row * snd row) rows) = er /\
    2 * jt_r rows i = 10 * xl_weight X * D /\
    ((forall l, In l ls -> stays l) ->
     is_derive (fun t => rsum (map (fun l => lweight (fl_limit l) * ell_violation2 X Y (set_nth p i t) (q t) (sts t) l) ls)) t0 D) /\
    ((forall l, In l ls -> round l) ->
     is_derive (fun t => rsum (map (fun l => lweight (fl_limit l) * ell_violation2 X (projection (sts t)) (set_nth p i t) (q t) (sts t) l) ls)) t0 D).
Proof.
  intros HW HI. induction ls as [|l ls IH]; intros H.
  - exists 0, [], 0. cbn [lx_jac_loop map rsum]. split; [reflexivity|]. split; [reflexivity|]. split; [intros ? []|].
    split; [ring|]. split; [reflexivity|]. split; [unfold jt_r; cbn; ring|]. split; intros _; apply d_const.
  - destruct (H l (or_introl eq_refl)) as (FA & AW & JC & HY).
    destruct (lx_jac1_ok l Y (HI l (or_introl eq_refl)) FA AW JC HW HY) as (er & rows & D & G1 & G2 & G3 & G4 & G5 & G6 & G7 & G8).
    destruct (IH (fun a Ha => HI a (or_intror Ha)) (fun a Ha => H a (or_intror Ha))) as (er2 & rows2 & D' & R1 & R2 & R3 & R4 & R5 & R6 & R7 & R8).
    cbn [lx_jac_loop]. rewrite G1. cbn [obind]. rewrite R1. cbn [obind].
    exists (er + er2), (rows ++ rows2), (lweight (fl_limit l) * D + D'). split; [reflexivity|].
    split; [rewrite app_length, G2, R2, map_cons; rewrite (jac_size_cons (fl_limit l) (map fl_limit ls)); reflexivity|].
    split; [intros row Hr; apply in_app_or in Hr as [Hr|Hr]; auto|].
    split; [rewrite G4, R4; cbn [map rsum]; ring|].
    split; [rewrite map_app, rsum_app, G5, R5; reflexivity|].
    split; [rewrite jt_r_app, Rmult_plus_distr_l, G6, R6; ring|].
    split.
    + intros ST. cbn [map rsum]. apply d_plus; [apply d_scal; apply G7, ST; left; reflexivity|apply R7; intros; apply ST; right; assumption].
    + intros RD. cbn [map rsum]. apply d_plus; [apply d_scal; apply G8, RD; left; reflexivity|apply R8; intros; apply RD; right; assumption].
Qed.
End Path.
End Fn.
