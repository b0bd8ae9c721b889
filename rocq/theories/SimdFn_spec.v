(** What the error functions over the wide stores measure: the stored constraints
    one by one, with the world transforms of their joints. *)

From Coq Require Import Bool Reals List Arith.
From Verif Require Import Prelude LinAlg R3 Transform_model Skeleton_spec FK_model FK_spec ParamTransform_model
  ParamTransform_spec Limits_model Loss_model Constraint_model Constraint_spec SimdStore_model SimdStore_spec
  Cells_model SimdFn_model.
Import ListNotations.
Local Open Scope nat_scope.
Local Open Scope R_scope.

(** The residual of the constraint with the stored numbers [vals] (as passed to
    addConstraint, the weight last), its joint having world transform [T]. The plane
    of a wide plane constraint has a normal that turns with the joint. *)
Definition wide_residual (k : skind) (vals : list R) (T : tf) : list R :=
  match k, vals with
  | KPosition, [ox; oy; oz; tx; ty; tz; _] => residual (CPosition (V3 ox oy oz) (V3 tx ty tz)) T
  | KPlane, [ox; oy; oz; nx; ny; nz; d; _] =>
      [vdot (tf_point T (V3 ox oy oz)) (qrot (rot T) (V3 nx ny nz)) - d]
  | KNormal, [ox; oy; oz; nx; ny; nz; tx; ty; tz; _] =>
      residual (CNormal (V3 ox oy oz) (V3 nx ny nz) (V3 tx ty tz)) T
  | _, _ => []
  end.
Definition wide_weight (vals : list R) : R := last vals 0.
Definition wide_numbers (k : skind) : nat := match k with KPosition => 7 | KPlane => 8 | KNormal => 10 end.

(** The weighted sum of the squared residuals. *)
Definition wide_objective (F : simdfn) (n : nat) (lists : nat -> list (list R)) (sts : list jstate) : R :=
  kWideWeight * sf_weight F *
  rsum (map (fun j => match nth_error sts j with
                      | Some s => rsum (map (fun vals => wide_weight vals *
                                               sqnorm (wide_residual (sf_kind F) vals (js_world s))) (lists j))
                      | None => 0 end) (seq 0 n)).

(** The same constraint in PositionErrorFunction, PlaneErrorFunction or
    NormalErrorFunction. *)
Definition plain_constraint (k : skind) (j : nat) (vals : list R) : constr :=
  Constr j (wide_weight vals)
    match k, vals with
    | KPosition, [ox; oy; oz; tx; ty; tz; _] => CPosition (V3 ox oy oz) (V3 tx ty tz)
    | KPlane, [ox; oy; oz; nx; ny; nz; d; _] => CPlane false (V3 ox oy oz) (V3 nx ny nz) d
    | KNormal, [ox; oy; oz; nx; ny; nz; tx; ty; tz; _] => CNormal (V3 ox oy oz) (V3 nx ny nz) (V3 tx ty tz)
    | _, _ => CPosition vzero vzero
    end.
Definition plain_constraints (k : skind) (n : nat) (lists : nat -> list (list R)) : list constr :=
  flat_map (fun j => map (plain_constraint k j) (lists j)) (seq 0 n).
(** An ordinary constraint error function with these constraints. *)
Definition plain_fn (F : simdfn) (n : nat) (lists : nat -> list (list R)) (enabled : pset) (L : loss) (prec tol : R) : cfn :=
  CFn (sf_sk F) (sf_pt F) (kWideWeight * sf_weight F) (sf_active F) enabled L
    (plain_constraints (sf_kind F) n lists) prec tol.

(** A consistent error function: the store has the joints of the skeleton and shows
    [lists]; activeJointParams_ contains what the enabled parameters drive. *)
Record simd_wf (F : simdfn) (st : sstore) (lists : nat -> list (list R)) (enabled : pset) : Prop := {
  sw_store : sf_store F = Some st;
  sw_dim : sdim_ok (sf_dim F);
  sw_blocks : d_blocks (sf_dim F) = wide_numbers (sf_kind F);
  sw_shows : shows (sf_dim F) st lists;
  sw_joints : ss_n st = List.length (sf_sk F);
  sw_rows : pt_rows (sf_pt F) = (7 * List.length (sf_sk F))%nat;
  sw_active_len : List.length (sf_active F) = pt_rows (sf_pt F);
  sw_active : forall e, In e (pt_entries (sf_pt F)) -> enabled (ecol e) = true ->
      nth (erow e) (sf_active F) false = true
}.

(** Parameter [i] turns no joint above a constraint. *)
Definition no_turning (F : simdfn) (lists : nat -> list (list R)) (i : nat) : Prop :=
  forall j a l e, lists j <> [] -> chain (sf_sk F) j l -> In a l ->
    In e (pt_entries (sf_pt F)) -> ecol e = i -> (7 * a + 3 <= erow e < 7 * a + 6)%nat -> eval e = 0.

(** (J^T r)_i. *)
Definition jt_res (jac : list (list R)) (res : list R) (i : nat) : R :=
  rsum (map (fun '(row, x) => nth i row 0 * x) (combine jac res)).

(** Every joint gets whole packets of rows. *)
Definition wide_rows (F : simdfn) (n : nat) (lists : nat -> list (list R)) : nat :=
  let P := d_packet (sf_dim F) in
  fold_right (fun j r => ((List.length (lists j) + P - 1) / P * (k_dim (sf_kind F) * P) + r)%nat) 0%nat (seq 0 n).

(** What the caller gets from the memory when all tasks are done. *)
Definition grad_result (F : simdfn) (n cols : nat) (m : mem) : R * list R :=
  (kWideWeight * sf_weight F * rsum (map (fun j => m (MErr j)) (seq 0 n)),
   map (fun i => m (MGrad i)) (seq 0 cols)).
Definition jac_result (F : simdfn) (n cols rows : nat) (m : mem) : R * list (list R) * list R * option nat :=
  (kWideWeight * sf_weight F * rsum (map (fun j => m (MErr j)) (seq 0 n)),
   map (fun r => map (fun c => m (MJac r c)) (seq 0 cols)) (seq 0 rows),
   map (fun r => m (MRes r)) (seq 0 rows), Some rows).
(** Every task has done all it has to do. *)
Definition all_finished (ts : list task) : Prop := forall t, In t ts -> fst t = [].
Definition zeros (rows cols : nat) : list (list R) := repeat (repeat 0 cols) rows.
