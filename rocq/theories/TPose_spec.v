(** Moving a character by a rigid motion (C114). *)

From Coq Require Import String Bool Reals List Arith.
From Verif Require Import Prelude R3 Transform_model Skeleton_spec FK_model FK_spec ParamTransform_model ParamTransform_spec Simplify_model Simplify_spec.
Import ListNotations.
Local Open Scope R_scope.

(** A parameter is rigid when its name contains "root_" or "hips". *)
Definition rigid_name (nm : string) : Prop :=
  exists a b, nm = (a ++ "root_" ++ b)%string \/ nm = (a ++ "hips" ++ b)%string.
Definition is_rigid (pt : ptransform) (i : nat) : Prop :=
  exists nm, nth_error (pt_name pt) i = Some nm /\ rigid_name nm.

(** A rigid parameter has a stored coefficient on the joint. *)
Definition rigid_joint (pt : ptransform) (j : nat) : Prop :=
  exists e, In e (pt_entries pt) /\ (erow e / 7 = j)%nat /\ is_rigid pt (ecol e).
Definition last_rigid_joint (pt : ptransform) (j : nat) : Prop :=
  rigid_joint pt j /\ forall k, rigid_joint pt k -> (k <= j)%nat.

(** A character: a skeleton with parents first and unit prerotations, a consistent parameter transform of
    seven rows per joint, and distinct parameter names. *)
Record poseable (sk : skeleton) (pt : ptransform) : Prop := {
  po_parents : parents_first (sk_parents sk);
  po_unit : unit_prerotations sk;
  po_pt : pt_wf pt;
  po_rows : pt_rows pt = (7 * List.length sk)%nat;
  po_names : NoDup (pt_name pt)
}.

(** The solver: the length stays, and so does every parameter that is not enabled; the enabled ones are
    those whose name is a rigid one. [names] are the names of the parameters the solver works on. *)
Definition solver_keeps (names : list string) (solve : nat -> nat -> tf -> list R -> list R) : Prop :=
  forall f k t p, List.length (solve f k t p) = List.length p /\
    forall i nm, nth_error names i = Some nm -> ~ rigid_name nm -> nth i (solve f k t p) 0 = nth i p 0.

(** The parameters that have a coefficient on a joint up to [m], in their order. *)
Definition names_up_to (pt : ptransform) (m : nat) (names : list string) : Prop :=
  exists S : pset, (forall i, S i = true <-> exists e, In e (pt_entries pt) /\ ecol e = i /\ (erow e / 7 <= m)%nat) /\
    names = map (fun i => nth i (pt_name pt) EmptyString) (kept (pt_cols pt) S).

(** A solver for the character. *)
Definition solver_for (pt : ptransform) (solve : nat -> nat -> tf -> list R -> list R) : Prop :=
  forall m names, last_rigid_joint pt m -> names_up_to pt m names -> solver_keeps names solve.

(** The character's pose: the transform to world space of every joint. *)
Definition pose_of (sk : skeleton) (pt : ptransform) (p : list R) (w : list tf) : Prop :=
  exists q sts, pt_apply pt p = Ok q /\ fk sk q = Ok sts /\ w = map js_world sts.

(** The distance of two points. *)
Definition pdist (a b : vec3) : R := sqrt (vnorm2 (vsub a b)).

(** Distance of two rotations: square root of the sum of the squares of the differences of the matrix entries. *)
Definition rot_dist (a b : quat) : R :=
  sqrt (vnorm2 (vsub (qrot a ex) (qrot b ex)) + vnorm2 (vsub (qrot a ey) (qrot b ey)) + vnorm2 (vsub (qrot a ez) (qrot b ez))).

(** The motion for frame [f]: one for all frames, or one for each. *)
Definition motion_of (ts : list tf) (f : nat) (T : tf) : Prop :=
  nth_error ts f = Some T \/ (List.length ts = 1%nat /\ nth_error ts 0 = Some T).
Definition motions_fit (frames : list (list R)) (ts : list tf) : Prop :=
  List.length ts = 1%nat \/ List.length frames = List.length ts.

(** Every frame is a pose of the character or empty. *)
Definition frames_fit (pt : ptransform) (frames : list (list R)) : Prop :=
  forall p, In p frames -> p = [] \/ List.length p = pt_cols pt.

(** No rigid parameter has a coefficient on the scale of a joint. *)
Definition no_rigid_scale (pt : ptransform) : Prop :=
  forall e, In e (pt_entries pt) -> is_rigid pt (ecol e) -> (erow e mod 7 <> 6)%nat.

(** The parameters the solver works on: those with a coefficient on a joint up to [m], in their order. *)
Definition solved_parameters (pt : ptransform) (m : nat) (ks : list nat) : Prop :=
  exists S : pset, (forall i, S i = true <-> exists e, In e (pt_entries pt) /\ ecol e = i /\ (erow e / 7 <= m)%nat) /\
    ks = kept (pt_cols pt) S.

(** The first values of the solve: the rigid parameters from [q], the others from [p]. *)
Definition starts_from (pt : ptransform) (ks : list nat) (p q start : list R) : Prop :=
  List.length start = List.length ks /\
  forall k i, nth_error ks k = Some i ->
    (is_rigid pt i -> nth k start 0 = nth i q 0) /\ (~ is_rigid pt i -> nth k start 0 = nth i p 0).

(** The pose before frame [f] to go on from: the one found for the frame before, if the output is to be
    continuous and that one is not empty, and the pose of the frame itself otherwise. *)
Definition goes_on_from (res : list (list R * bool)) (continuous : bool) (f : nat) (p q : list R) : Prop :=
  (exists g b, f = S g /\ continuous = true /\ nth_error res g = Some (q, b) /\ q <> []) \/
  ((f = 0%nat \/ continuous = false \/ (exists g b, f = S g /\ nth_error res g = Some ([], b))) /\ q = p).

(** [r] is [p] with the values [sol] of the parameters [ks]. *)
Definition with_solution (ks : list nat) (sol p r : list R) : Prop :=
  List.length r = List.length p /\ (forall k i, nth_error ks k = Some i -> nth i r 0 = nth k sol 0) /\
  (forall i, ~ In i ks -> nth i r 0 = nth i p 0).
