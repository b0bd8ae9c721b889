(** momentum/character_solver/collision_error_function.cpp: the collision penalty that finds candidate
    pairs with a tree of bounding boxes. Scalars are reals.

    The calls that bvh_.traverseOverlappingPairs makes (Bvh_pair_model) come in as the argument [vs],
    because their order depends on how earlier calls arranged the tree. *)

From Coq Require Import Bool Reals List Arith NArith.
From Verif Require Import Prelude LinAlg Rbool R3 Transform_model Skeleton_model FK_model ParamTransform_model
  Limits_model Constraint_model Skin_model CharUtil_model Ellipsoid_model Seg_model Coll_model.
Import ListNotations.
Local Open Scope R_scope.
Local Open Scope outcome_scope.

(** axel::BoundingBox without its id, which is its place in the list. *)
Record rbox : Type := RB { rb_lo : vec3; rb_hi : vec3 }.

Definition vmap2 (f : R -> R -> R) (a b : vec3) : vec3 := V3 (f (vx a) (vx b)) (f (vy a) (vy b)) (f (vz a) (vz b)).
Definition vconst (r : R) : vec3 := V3 r r r.

(** updateAabb, collision_geometry_state.h:91-108. *)
Definition update_aabb (c : cstate) : rbox :=
  let '(originA, direction, r0, r1) := c in
  let originB := vadd originA direction in
  RB (vmap2 Rmin (vsub originA (vconst r0)) (vsub originB (vconst r1)))
     (vmap2 Rmax (vadd originA (vconst r0)) (vadd originB (vconst r1))).

(** PairHash and PairEqual, collision_error_function.h:63-77, with 64-bit size_t. *)
Definition pair_hash (p : N * N) : N :=
  N.lor (N.shiftl (N.min (fst p) (snd p)) 32 mod 2 ^ 64) (N.max (fst p) (snd p)).
Definition pair_equal (p q : nat * nat) : bool :=
  (Nat.eqb (fst p) (fst q) && Nat.eqb (snd p) (snd q)) || (Nat.eqb (fst p) (snd q) && Nat.eqb (snd p) (fst q)).

(** The members; collisionState_ and the tree are the argument [mem] of the functions. *)
Record bcoll_fn : Type := BColl {
  bc_sk : skeleton;
  bc_pt : ptransform;
  bc_geo : list capsule;
  bc_excluding : list (nat * nat);
  bc_size : nat;
  bc_weight : R;
  bc_enabled : pset;
  bc_active : list bool;
  bc_eps : R
}.
(** collisionState_ and the pairs that bvh_ visits. *)
Definition bmem : Type := (list cstate * list (nat * nat))%type.

(** excludingPairIds_.find(pairId) != end(). *)
Definition excluded (E : bcoll_fn) (v : nat * nat) : bool := existsb (pair_equal v) (bc_excluding E).

(** The body of the loops of updateCollisionPairs, 77-119: the pairs to exclude and the rows to add. *)
Definition bpair_body (eps : R) (sk : skeleton) (g : list capsule) (cs : list cstate) (i j : nat) : outcome (list (nat * nat) * nat) :=
  let* A := rd cs i in
  let* B := rd cs j in
  match overlaps eps A B with
  | Some _ => Ok ([(i, j)], 0%nat)
  | None =>
      let* ci := rd g i in
      let* cj := rd g j in
      let* (_, count) := Coll_model.common_ancestor (2 * length sk) sk (cap_parent ci) (cap_parent cj) 0 in
      Ok (if Nat.ltb 1 count then ([], 1%nat) else ([(i, j)], 0%nat))
  end.
Fixpoint bloop (f : nat -> outcome (list (nat * nat) * nat)) (l : list nat) : outcome (list (nat * nat) * nat) :=
  match l with
  | [] => Ok ([], 0%nat)
  | x :: r => let* (e, n) := f x in let* (e', n') := bloop f r in Ok (e ++ e', (n + n')%nat)
  end.

(** The constructor, 20-26, and updateCollisionPairs, 41-121; weight 1, all parameters enabled. [vs] are the
    visits of the tree in the rest pose. *)
Definition bcoll_make (eps : R) (sk : skeleton) (pt : ptransform) (g : list capsule) (vs : list (nat * nat)) : outcome (bcoll_fn * bmem) :=
  let* _ := check (Nat.eqb (length (pt_offsets pt)) (pt_rows pt)) in
  let* sts := fk sk (pt_offsets pt) in
  let* cs := caps_update sts g in
  let* (ex, size) := bloop (fun i => bloop (bpair_body eps sk g cs i) (seq (S i) (length g - S i))) (seq 0 (length g)) in
  Ok (BColl sk pt g ex size 1 (fun _ => true) (pt_active pt) eps, (cs, vs)).

(** The parts that the work on one pair uses, as in the function without a tree. *)
Definition bc_core (E : bcoll_fn) : coll_fn := Coll (bc_sk E) (bc_pt E) (bc_geo E) [] (bc_weight E) (bc_enabled E) (bc_active E) (bc_eps E).

(** getCollisionPairs, 145-181. *)
Fixpoint bcoll_pairs_loop (E : bcoll_fn) (cs : list cstate) (vs : list (nat * nat)) : outcome (list (nat * nat)) :=
  match vs with
  | [] => Ok []
  | v :: r =>
      if excluded E v then bcoll_pairs_loop E cs r else
      let* o := pair_overlap (bc_core E) cs (v, None) in
      let* rest := bcoll_pairs_loop E cs r in
      Ok (match o with None => rest | Some _ => v :: rest end)
  end.
Definition bcoll_pairs (E : bcoll_fn) (m : bmem) : outcome (list (nat * nat)) := bcoll_pairs_loop E (fst m) (snd m).

(** The callback of getError, 203-233. *)
Fixpoint bcoll_err_loop (E : bcoll_fn) (cs : list cstate) (vs : list (nat * nat)) : outcome R :=
  match vs with
  | [] => Ok 0
  | v :: r =>
      if excluded E v then bcoll_err_loop E cs r else
      let* o := pair_overlap (bc_core E) cs (v, None) in
      let* e := bcoll_err_loop E cs r in
      Ok (match o with None => e | Some (_, _, (_, _, ov)) => ov * ov * kCollisionWeight * bc_weight E + e end)
  end.

(** getError, 184-236; computeBroadPhase, 124-142, replaces collisionState_ and the boxes. *)
Definition bcoll_error (E : bcoll_fn) (m : bmem) (vs : list (nat * nat)) (jp : list R) (sts : list jstate) : outcome (R * bmem) :=
  match sts with
  | [] => Ok (0, m)
  | _ =>
      let* _ := check (Nat.eqb (length jp) (length (bc_sk E) * 7)) in
      let* cs := caps_update sts (bc_geo E) in
      let* e := bcoll_err_loop E cs vs in
      Ok (e, (cs, vs))
  end.

(** The joint where the chains of the two capsules meet, 287-289. *)
Definition bc_ancestor (E : bcoll_fn) (v : nat * nat) : outcome (option nat) :=
  let* ca := rd (bc_geo E) (fst v) in
  let* cb := rd (bc_geo E) (snd v) in
  Skeleton_model.common_ancestor (S (2 * length (bc_sk E))) (sk_parents (bc_sk E)) (cap_parent ca) (cap_parent cb).

(** The callback of getGradient, 256-408; the work on the two joints is that of the other function. *)
Definition bcoll_grad1 (E : bcoll_fn) (sts : list jstate) (cs : list cstate) (v : nat * nat) : outcome (R * list (nat * R)) :=
  if excluded E v then Ok (0, []) else
  let* o := pair_overlap (bc_core E) cs (v, None) in
  match o with
  | None => Ok (0, [])
  | Some _ =>
      let* a := bc_ancestor E v in
      let* x := coll_grad1 (bc_core E) sts cs (v, a) in
      Ok (fst (fst x), snd x)
  end.
Fixpoint bcoll_grad_loop (E : bcoll_fn) (sts : list jstate) (cs : list cstate) (vs : list (nat * nat)) (g : list R) : outcome (R * list R) :=
  match vs with
  | [] => Ok (0, g)
  | v :: r =>
      let* (e, incs) := bcoll_grad1 E sts cs v in
      let* g' := add_all g incs in
      let* (e', g'') := bcoll_grad_loop E sts cs r g' in
      Ok (e + e', g'')
  end.
(** getGradient, 239-411. *)
Definition bcoll_gradient (E : bcoll_fn) (m : bmem) (vs : list (nat * nat)) (jp : list R) (sts : list jstate) (g : list R) : outcome (R * list R * bmem) :=
  match sts with
  | [] => Ok (0, g, m)
  | _ =>
      let* _ := check (Nat.eqb (length jp) (length (bc_sk E) * 7)) in
      let* cs := caps_update sts (bc_geo E) in
      let* (e, g') := bcoll_grad_loop E sts cs vs g in
      Ok (e, g', (cs, vs))
  end.

(** The callback of getJacobian, 451-607. *)
Definition bcoll_jac1 (E : bcoll_fn) (sts : list jstate) (cs : list cstate) (v : nat * nat) : outcome (R * list (list R * R)) :=
  if excluded E v then Ok (0, []) else
  let* o := pair_overlap (bc_core E) cs (v, None) in
  match o with
  | None => Ok (0, [])
  | Some _ =>
      let* a := bc_ancestor E v in
      let* x := coll_jac1 (bc_core E) sts cs (v, a) in
      Ok (fst (fst x), snd x)
  end.
Fixpoint bcoll_jac_loop (E : bcoll_fn) (sts : list jstate) (cs : list cstate) (vs : list (nat * nat)) : outcome (R * list (list R * R)) :=
  match vs with
  | [] => Ok (0, [])
  | v :: r =>
      let* (e, rows) := bcoll_jac1 E sts cs v in
      let* (e', rows') := bcoll_jac_loop E sts cs r in
      Ok (e + e', rows ++ rows')
  end.
(** getJacobian, 414-611: the used rows; the caller's rows are zero. *)
Definition bcoll_jacobian (E : bcoll_fn) (m : bmem) (vs : list (nat * nat)) (jp : list R) (sts : list jstate) : outcome (R * list (list R * R) * bmem) :=
  match sts with
  | [] => Ok (0, [], m)
  | _ =>
      let* _ := check (Nat.eqb (length jp) (length (bc_sk E) * 7)) in
      let* cs := caps_update sts (bc_geo E) in
      let* (e, rows) := bcoll_jac_loop E sts cs vs in
      Ok (e, rows, (cs, vs))
  end.
(** getJacobianSize. *)
Definition bcoll_jacobian_size (E : bcoll_fn) : nat := bc_size E.

(** A history of calls of one object, each with the visits of the tree that it builds. *)
Inductive bcall : Type :=
| BError (vs : list (nat * nat)) (jp : list R) (sts : list jstate)
| BGradient (vs : list (nat * nat)) (jp : list R) (sts : list jstate) (g : list R)
| BJacobian (vs : list (nat * nat)) (jp : list R) (sts : list jstate).
Definition bstep (E : bcoll_fn) (m : bmem) (c : bcall) : outcome bmem :=
  match c with
  | BError vs jp sts => let* r := bcoll_error E m vs jp sts in Ok (snd r)
  | BGradient vs jp sts g => let* r := bcoll_gradient E m vs jp sts g in Ok (snd r)
  | BJacobian vs jp sts => let* r := bcoll_jacobian E m vs jp sts in Ok (snd r)
  end.
Fixpoint bhistory (E : bcoll_fn) (m : bmem) (l : list bcall) : outcome bmem :=
  match l with
  | [] => Ok m
  | c :: r => let* m' := bstep E m c in bhistory E m' r
  end.
