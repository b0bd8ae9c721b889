(** What the error functions are supposed to compute (C19, C20, C21, C66, C67). *)

From Coq Require Import Bool Reals List Arith.
From Coquelicot Require Import Coquelicot.
From Verif Require Import Prelude LinAlg Rbool R3 Transform_model FK_model FK_spec ParamTransform_model
  Limits_model Limits_spec Loss_model Constraint_model ErrFn_model Skeleton_model Skeleton_spec ParamTransform_spec.
Import ListNotations.
Local Open Scope R_scope.

(** Weighted squared distance of the enabled parameters to their targets. *)
Definition mp_objective (E : mp_fn) (p : list R) : R :=
  mp_weight E / 10 *
  sumn (List.length p) (fun i =>
    if mp_enabled E i then (nth i (mp_weights E) 0 * (nth i p 0 - nth i (mp_target E) 0)) ^ 2 else 0).
Record mp_wf (E : mp_fn) (n : nat) : Prop := {
  mpw_target : List.length (mp_target E) = n;
  mpw_weights : List.length (mp_weights E) = n;
  mpw_max : (n <= kMaxModelParams)%nat
}.

(** Squared Frobenius distance of two rotation matrices. *)
Definition frob2 (a b : mat3) : R :=
  vnorm2 (vsub (col0 a) (col0 b)) + vnorm2 (vsub (col1 a) (col1 b)) + vnorm2 (vsub (col2 a) (col2 b)).

(** Weighted squared distances of the parameters, joint orientations and joint
    positions to their targets. *)
Definition st_objective (E : st_fn) (p : list R) (sts : list jstate) : R :=
  st_weight E *
  (sumn (List.length p) (fun i => ((nth i p 0 - nth i (st_tparams E) 0) * nth i (st_tpw E) 0) ^ 2) +
   sumn (List.length (st_sk E)) (fun j =>
     match nth_error sts j, nth_error (st_target E) j with
     | Some s, Some t =>
         st_rotWgt E * nth j (st_rotw E) 0 * frob2 (qmat (rot (js_world s))) (qmat (qnormalized (rot t))) +
         st_posWgt E / 1000 * nth j (st_posw E) 0 * vnorm2 (vsub (trans (js_world s)) (trans t))
     | _, _ => 0
     end)).

(** A consistent state error function; [i] is a parameter whose joint parameters
    are active. *)
Record st_wf (E : st_fn) (i : nat) : Prop := {
  stw_rows : pt_rows (st_pt E) = (7 * List.length (st_sk E))%nat;
  stw_target : List.length (st_target E) = List.length (st_sk E);
  stw_posw : List.length (st_posw E) = List.length (st_sk E);
  stw_rotw : List.length (st_rotw E) = List.length (st_sk E);
  stw_tparams : List.length (st_tparams E) = pt_cols (st_pt E);
  stw_tpw : List.length (st_tpw E) = pt_cols (st_pt E);
  stw_active_len : List.length (st_active E) = pt_rows (st_pt E);
  stw_active : forall e, In e (pt_entries (st_pt E)) -> ecol e = i -> nth (erow e) (st_active E) false = true;
  stw_joints : (0 < List.length (st_sk E))%nat
}.

(** The contract of an error function at parameters [p] in direction [i]:
    [F] is getError along the parameter, getGradient returns it and adds its
    derivative [d] to entry [i]. *)
Record gradient_contract (sk : skeleton) (pt : ptransform) (E : efn) (p : list R) (i : nat)
  (F : R -> R) (d : R) : Prop := {
  gc_error : forall t, exists s, sf_state sk pt (set_nth p i t) = Ok s /\ ef_error E (set_nth p i t) s = Ok (F t);
  gc_gradient : forall s g, sf_state sk pt p = Ok s -> List.length g = List.length p ->
    exists g', ef_gradient E p s g = Ok (F (nth i p 0), g') /\ List.length g' = List.length g /\
               nth i g' 0 - nth i g 0 = d;
  gc_derive : is_derive F (nth i p 0) d
}.

(** The same for getJacobian: it returns the error, the rows it writes fit into
    the block and into usedRows, and 2 J^T r is the derivative. *)
Record jacobian_contract (sk : skeleton) (pt : ptransform) (E : efn) (p : list R) (i : nat)
  (F : R -> R) (d : R) : Prop := {
  jc_error : forall t, exists s, sf_state sk pt (set_nth p i t) = Ok s /\ ef_error E (set_nth p i t) s = Ok (F t);
  jc_jacobian : forall s, sf_state sk pt p = Ok s ->
    exists rows used, ef_jacobian E (List.length p) p s = Ok (F (nth i p 0), rows, Some used) /\
      (List.length rows <= used <= ef_jsize E)%nat /\
      (forall row, In row rows -> List.length (fst row) = List.length p) /\
      2 * jt_r rows i = d;
  jc_derive : is_derive F (nth i p 0) d
}.

(** Entry (a, b) of J^T J. *)
Definition jt_j (rows : list (list R * R)) (a b : nat) : R :=
  rsum (map (fun row => nth a (fst row) 0 * nth b (fst row) 0) rows).

(** getJacobian of a member behaves: it sets usedRows, which covers the rows it
    wrote and fits its block. *)
Definition jacobian_fits (E : efn) (n : nat) (p : list R) (s : sstate) : Prop :=
  exists e rows used, ef_jacobian E n p s = Ok (e, rows, Some used) /\
    (List.length rows <= used <= ef_jsize E)%nat /\
    (forall row, In row rows -> List.length (fst row) = n).

(** No weight of the state error function is negative. *)
Definition nonneg_weights (E : st_fn) : Prop :=
  0 <= st_weight E /\ 0 <= st_posWgt E /\ 0 <= st_rotWgt E /\
  (forall j, (j < List.length (st_sk E))%nat -> 0 <= nth j (st_posw E) 0 /\ 0 <= nth j (st_rotw E) 0).

(** [A] is the m x m matrix with lower triangle [f] and zeros above; [v] the vector
    with entries [f]. *)
Definition mat_is (m : nat) (A : list (list R)) (f : nat -> nat -> R) : Prop :=
  List.length A = m /\ forall a, (a < m)%nat -> List.length (nth a A []) = m /\
    forall b, (b < m)%nat -> nth b (nth a A []) 0 = if Nat.leb b a then f a b else 0.
Definition vec_is (m : nat) (v : list R) (f : nat -> R) : Prop :=
  List.length v = m /\ forall a, (a < m)%nat -> nth a v 0 = f a.

(** The skeleton and the parameter transform fit together. *)
Record character_wf (sk : skeleton) (pt : ptransform) : Prop := {
  chw_parents : parents_first (sk_parents sk);
  chw_prerot : unit_prerotations sk;
  chw_pt : pt_wf pt;
  chw_rows : pt_rows pt = (7 * List.length sk)%nat
}.
