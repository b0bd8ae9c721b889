(** momentum/character_solver/collision_error_function_stateless.cpp and the overlap test of
    momentum/character/collision_geometry_state.h. Scalars are reals. *)

From Coq Require Import Bool Reals List Arith.
From Verif Require Import Prelude LinAlg Rbool R3 Transform_model Skeleton_model FK_model ParamTransform_model
  Limits_model Constraint_model Skin_model CharUtil_model Ellipsoid_model Seg_model.
Import ListNotations.
Local Open Scope R_scope.
Local Open Scope outcome_scope.

(** One element of CollisionGeometryStateT: origin, direction and the two radii. *)
Definition cstate : Type := (vec3 * vec3 * R * R)%type.

(** CollisionGeometryStateT::update, collision_geometry_state.cpp:15-36. *)
Fixpoint caps_update (sts : list jstate) (g : list capsule) : outcome (list cstate) :=
  match g with
  | [] => Ok []
  | c :: r => let* s := capsule_state sts c in let* rest := caps_update sts r in Ok (s :: rest)
  end.

(** overlaps, collision_geometry_state.h:50-86: distance, parameters of the closest points and overlap
    if the result is true. [eps] is Eps<T>(1e-8, 1e-17). *)
Definition overlaps (eps : R) (A B : cstate) : option (R * (R * R) * R) :=
  let '(oA, dA, rA0, rA1) := A in
  let '(oB, dB, rB0, rB1) := B in
  let maxRadiiSum := Rmax rA0 rA1 + Rmax rB0 rB1 in
  match closest_on_segments oA dA oB dB maxRadiiSum with
  | None => None
  | Some (dist, (s, t)) =>
      let radius := rA0 + s * (rA1 - rA0) + rB0 + t * (rB1 - rB0) in
      let overlap := radius - dist in
      if Rltb 0 overlap && Rleb eps dist then Some (dist, (s, t), overlap) else None
  end.

(** The loop of 92-99: the common ancestor and the number of steps to it. kInvalidIndex is the largest
    index. *)
Definition idx_gtb (p q : option nat) : bool :=
  match p, q with
  | None, Some _ => true
  | Some a, Some b => Nat.ltb b a
  | _, _ => false
  end.
Definition idx_eqb (p q : option nat) : bool :=
  match p, q with None, None => true | Some a, Some b => Nat.eqb a b | _, _ => false end.
Definition parent_of (sk : skeleton) (p : option nat) : outcome (option nat) :=
  match p with
  | None => UB
  | Some k => let* jt := rd sk k in Ok (jparent jt)
  end.
Fixpoint common_ancestor (fuel : nat) (sk : skeleton) (p q : option nat) (count : nat) : outcome (option nat * nat) :=
  if idx_eqb p q then Ok (p, count) else
  match fuel with
  | O => OutOfFuel
  | S f =>
      if idx_gtb p q then let* p' := parent_of sk p in common_ancestor f sk p' q (S count)
      else let* q' := parent_of sk q in common_ancestor f sk p q' (S count)
  end.

(** A collision pair: two indices of capsules and the common ancestor; [None] is the -1 that narrowing
    kInvalidIndex to int gives. *)
Definition cpair : Type := (nat * nat * option nat)%type.

(** The body of the two loops of updateCollisionPairs, 61-109. *)
Definition pair_body (eps : R) (sk : skeleton) (g : list capsule) (cs : list cstate) (i j : nat) : outcome (list cpair) :=
  let* A := rd cs i in
  let* B := rd cs j in
  match overlaps eps A B with
  | Some _ => Ok []
  | None =>
      let* ci := rd g i in
      let* cj := rd g j in
      let* (a, count) := common_ancestor (2 * length sk) sk (cap_parent ci) (cap_parent cj) 0 in
      Ok (if Nat.ltb 1 count then [(i, j, a)] else [])
  end.
Fixpoint oconcat {A B} (f : A -> outcome (list B)) (l : list A) : outcome (list B) :=
  match l with
  | [] => Ok []
  | x :: r => let* a := f x in let* b := oconcat f r in Ok (a ++ b)
  end.

(** updateCollisionPairs, 47-112. *)
Definition collision_pairs (eps : R) (sk : skeleton) (pt : ptransform) (g : list capsule) : outcome (list cpair) :=
  let* _ := check (Nat.eqb (length (pt_offsets pt)) (pt_rows pt)) in
  let* sts := fk sk (pt_offsets pt) in
  let* cs := caps_update sts g in
  oconcat (fun i => oconcat (pair_body eps sk g cs i) (seq (S i) (length g - S i))) (seq 0 (length g)).

(** The members of the error function. *)
Record coll_fn : Type := Coll {
  co_sk : skeleton;
  co_pt : ptransform;
  co_geo : list capsule;
  co_pairs : list cpair;
  co_weight : R;
  co_enabled : pset;
  co_active : list bool;
  co_eps : R
}.

(** kCollisionWeight, collision_error_function_stateless.h:68. The literal 5e-3f is taken as the real
    number. *)
Definition kCollisionWeight : R := 5 / 1000.

(** What getError, getGradient and getJacobian do first for a pair (138-154): the overlap with the two
    capsules. *)
Definition pair_overlap (E : coll_fn) (cs : list cstate) (pr : cpair) : outcome (option (cstate * cstate * (R * (R * R) * R))) :=
  let '(i, j, _) := pr in
  let* A := rd cs i in
  let* B := rd cs j in
  Ok (match overlaps (co_eps E) A B with None => None | Some o => Some (A, B, o) end).

(** The loop of getError, 136-159: the error and collisionActive. *)
Fixpoint coll_err_loop (E : coll_fn) (cs : list cstate) (prs : list cpair) : outcome (R * list bool) :=
  match prs with
  | [] => Ok (0, [])
  | pr :: r =>
      let* o := pair_overlap E cs pr in
      let* (e, act) := coll_err_loop E cs r in
      Ok (match o with
          | None => (e, false :: act)
          | Some (_, _, (_, _, ov)) => (ov * ov * kCollisionWeight * co_weight E + e, true :: act)
          end)
  end.

(** getError, 128-163. [jp] is state.jointParameters. *)
Definition coll_error (E : coll_fn) (jp : list R) (sts : list jstate) : outcome (R * list bool) :=
  match sts with
  | [] => Ok (0, repeat false (length (co_pairs E)))
  | _ =>
      let* _ := check (Nat.eqb (length jp) (length (co_sk E) * 7)) in
      let* cs := caps_update sts (co_geo E) in
      coll_err_loop E cs (co_pairs E)
  end.

(** getCollisionPairs, 115-125. *)
Definition active_pairs (prs : list cpair) (act : list bool) : list (nat * nat) :=
  map (fun x => (fst (fst (fst x)), snd (fst (fst x)))) (filter snd (combine prs act)).

(** The point of a capsule's axis at [s]. *)
Definition axis_point (c : cstate) (s : R) : vec3 :=
  let '(o, d, _, _) := c in vadd o (vscale s d).

(** The two walks of 214-263 and 268-325: the active joint parameters below the common ancestor with the
    derivative of the position. A common ancestor -1 stops at no joint. *)
Definition coll_terms (E : coll_fn) (sts : list jstate) (k : nat) (stop : option nat) (position : vec3) : outcome (list (nat * vec3)) :=
  let* c := rd (co_geo E) k in
  ell_walk (length (co_sk E)) (co_sk E) sts (match stop with Some a => a | None => length (co_sk E) end)
    (ell_dofs (co_active E) position) (cap_parent c).

(** One pair of getGradient, 185-326: the error increment and the increments of the gradient. *)
Definition coll_grad1 (E : coll_fn) (sts : list jstate) (cs : list cstate) (pr : cpair) : outcome (R * bool * list (nat * R)) :=
  let* o := pair_overlap E cs pr in
  match o with
  | None => Ok (0, false, [])
  | Some (A, B, (dist, (s, t), ov)) =>
      let '(i, j, a) := pr in
      let position_i := axis_point A s in
      let position_j := axis_point B t in
      let direction := vsub position_i position_j in
      let wgt := -2 * kCollisionWeight * co_weight E * (ov / dist) in
      let* ti := coll_terms E sts i a position_i in
      let* tj := coll_terms E sts j a position_j in
      Ok (ov * ov * kCollisionWeight * co_weight E, true,
          spread (pt_entries (co_pt E)) ti (fun d => vdot direction d * wgt) ++
          spread (pt_entries (co_pt E)) tj (fun d => vdot direction d * - wgt))
  end.
Fixpoint coll_grad_loop (E : coll_fn) (sts : list jstate) (cs : list cstate) (prs : list cpair) (g : list R) : outcome (R * list bool * list R) :=
  match prs with
  | [] => Ok (0, [], g)
  | pr :: r =>
      let* x := coll_grad1 E sts cs pr in
      let '(e, b, incs) := x in
      let* g' := add_all g incs in
      let* y := coll_grad_loop E sts cs r g' in
      let '(e', act, g'') := y in
      Ok (e + e', b :: act, g'')
  end.

(** getGradient, 166-331. *)
Definition coll_gradient (E : coll_fn) (jp : list R) (sts : list jstate) (g : list R) : outcome (R * list bool * list R) :=
  match sts with
  | [] => Ok (0, repeat false (length (co_pairs E)), g)
  | _ =>
      let* _ := check (Nat.eqb (length jp) (length (co_sk E) * 7)) in
      let* cs := caps_update sts (co_geo E) in
      coll_grad_loop E sts cs (co_pairs E) g
  end.

(** One pair of getJacobian, 382-522: the error increment and, if the capsules overlap, a row with its
    residual. The rows of the caller's matrix are zero. *)
Definition coll_jac1 (E : coll_fn) (sts : list jstate) (cs : list cstate) (pr : cpair) : outcome (R * bool * list (list R * R)) :=
  let* o := pair_overlap E cs pr in
  match o with
  | None => Ok (0, false, [])
  | Some (A, B, (dist, (s, t), ov)) =>
      let '(i, j, a) := pr in
      let wgt := sqrt (kCollisionWeight * co_weight E) in
      let position_i := axis_point A s in
      let position_j := axis_point B t in
      let direction := vsub position_i position_j in
      let fac := 2 * (1 / dist) * wgt in
      let* ti := coll_terms E sts i a position_i in
      let* tj := coll_terms E sts j a position_j in
      let* row := add_all (repeat 0 (pt_cols (co_pt E)))
          (spread (pt_entries (co_pt E)) ti (fun d => vdot direction d * - fac) ++
           spread (pt_entries (co_pt E)) tj (fun d => vdot direction d * fac)) in
      Ok (ov * ov * kCollisionWeight * co_weight E, true, [(row, ov * wgt)])
  end.
Fixpoint coll_jac_loop (E : coll_fn) (sts : list jstate) (cs : list cstate) (prs : list cpair) : outcome (R * list bool * list (list R * R)) :=
  match prs with
  | [] => Ok (0, [], [])
  | pr :: r =>
      let* x := coll_jac1 E sts cs pr in
      let '(e, b, rows) := x in
      let* y := coll_jac_loop E sts cs r in
      let '(e', act, rows') := y in
      Ok (e + e', b :: act, rows ++ rows')
  end.

(** getJacobian, 334-531: the error, collisionActive and the used rows. *)
Definition coll_jacobian (E : coll_fn) (jp : list R) (sts : list jstate) : outcome (R * list bool * list (list R * R)) :=
  match sts with
  | [] => Ok (0, repeat false (length (co_pairs E)), [])
  | _ =>
      let* _ := check (Nat.eqb (length jp) (length (co_sk E) * 7)) in
      let* cs := caps_update sts (co_geo E) in
      coll_jac_loop E sts cs (co_pairs E)
  end.

(** getJacobianSize, 534-536. *)
Definition coll_jacobian_size (E : coll_fn) : nat := length (co_pairs E).

(** The constructor, 22-31, with weight 1 and all parameters enabled (skeleton_error_function.h:20-30). *)
Definition coll_make (eps : R) (sk : skeleton) (pt : ptransform) (g : list capsule) : outcome coll_fn :=
  let* prs := collision_pairs eps sk pt g in
  Ok (Coll sk pt g prs 1 (fun _ => true) (pt_active pt) eps).
