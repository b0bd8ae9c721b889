(** Model of axel/axel/Bvh.h: overlapping pairs and closest surface points. *)

From Coq Require Import List Arith NArith QArith Bool.
From Verif Require Import Prelude Loops Box_model Bvh_model.
Import ListNotations.
Local Open Scope outcome_scope.
Local Open Scope nat_scope.

Section Pairs.
Context {A : Type}.
(** The callback: it gets two ids, may change its state, and returns whether to go on. *)
Variable func : nat -> nat -> A -> bool * A.

(** eachPrimitive with a callback that returns bool, Bvh.h:236-254. *)
Fixpoint each (ps : list box) (f : box -> A -> bool * A) (a : A) : bool * A :=
  match ps with
  | [] => (true, a)
  | b :: ps => let (go, a') := f b a in if go then each ps f a' else (false, a')
  end.

(** traverseCollision, Bvh.h:308-361; true means that the traversal is over. [fuel] bounds the depth
    of the recursion. *)
Fixpoint pair_walk (fuel : nat) (ta tb : bvh) (ia ib : nat) (a : A) : outcome (bool * A) :=
  match fuel with
  | 0 => OutOfFuel
  | S f =>
    let* na := rd (t_flat ta) ia in
    let* nb := rd (t_flat tb) ib in
    if negb (box_intersects (n_box na) (n_box nb)) then Ok (false, a)
    else if is_leaf na && is_leaf nb then
      let* pa := read_range (t_prims ta) (n_start na) (n_prims na) in
      let* pb := read_range (t_prims tb) (n_start nb) (n_prims nb) in
      let (_, a') := each pa (fun x a => each pb (fun y a => func (bid x) (bid y) a) a) a in
      Ok (false, a')
    else
      let descend_a := is_leaf nb || (negb (is_leaf na) && Qltb (sq_volume (n_box nb)) (sq_volume (n_box na))) in
      let ia1 := if descend_a then left_index ia else ia in
      let ia2 := if descend_a then right_index na ia else ia in
      let ib1 := if descend_a then ib else left_index ib in
      let ib2 := if descend_a then ib else right_index nb ib in
      let* r := pair_walk f ta tb ia1 ib1 a in
      if fst r then Ok r else pair_walk f ta tb ia2 ib2 (snd r)
  end.

(** traverseSelfCollision, Bvh.h:363-397. *)
Fixpoint self_walk (fuel : nat) (t : bvh) (i : nat) (a : A) : outcome (bool * A) :=
  match fuel with
  | 0 => OutOfFuel
  | S f =>
    let* n := rd (t_flat t) i in
    if is_leaf n then Ok (false, a)
    else
      let* r := self_walk f t (left_index i) a in
      if fst r then Ok r
      else
        let* r := self_walk f t (right_index n i) (snd r) in
        if fst r then Ok r
        else pair_walk (2 * length (t_flat t)) t t (left_index i) (right_index n i) (snd r)
  end.

(** traverseOverlappingPairs, Bvh.h:621-632, and with another tree, 634-653. *)
Definition overlapping_pairs (t : bvh) (a : A) : outcome A :=
  if length (t_flat t) =? 0 then Ok a else let* r := self_walk (length (t_flat t)) t 0 a in Ok (snd r).
Definition overlapping_pairs_with (t other : bvh) (a : A) : outcome A :=
  if (length (t_flat t) =? 0) || (length (t_flat other) =? 0) then Ok a
  else let* r := pair_walk (length (t_flat t) + length (t_flat other)) t other 0 0 a in Ok (snd r).
End Pairs.

(** ** Closest surface point *)

(** (projection - query).squaredNorm() *)
Definition sq_norm (p q : q3) : Q :=
  (qx p - qx q) * (qx p - qx q) + (qy p - qy q) * (qy p - qy q) + (qz p - qz q) * (qz p - qz q).

(** ClosestSurfacePointResult: the point and the triangle, if one was found; with the smallest squared
    distance so far. *)
Definition closest := (Q * option (q3 * nat))%type.

Section Closest.
(** The callback gives the closest point of the primitive with that id. *)
Variables (t : bvh) (q : q3) (func : nat -> q3).

(** The scalar leaf case, Bvh.h:486-496. *)
Definition closest_prim (s : closest) (b : box) : closest :=
  let p := func (bid b) in
  let d := sq_norm p q in
  if Qltb d (fst s) then (d, Some (p, bid b)) else s.

(** queryClosestHelper<false>, lines 446-538. *)
Fixpoint closest_node (fuel : nat) (i : nat) (s : closest) : outcome closest :=
  match fuel with
  | 0 => OutOfFuel
  | S f =>
    let* n := rd (t_flat t) i in
    if is_leaf n then
      let* ps := read_range (t_prims t) (n_start n) (n_prims n) in
      Ok (fold_left closest_prim ps s)
    else
      (* checkSubtree, lines 498-505 *)
      let sub (j : nat) (s : closest) : outcome closest :=
        let* r := closest_node f j (fst s, None) in
        Ok (if Qltb (fst r) (fst s) then r else s) in
      let* l := rd (t_flat t) (left_index i) in
      let* r := rd (t_flat t) (right_index n i) in
      let cl := contains_point (n_box l) q in
      let cr := contains_point (n_box r) q in
      let* s := if cl then sub (left_index i) s else Ok s in
      let* s := if cr then sub (right_index n i) s else Ok s in
      let dl := sq_dist_to_box (n_box l) q in
      let dr := sq_dist_to_box (n_box r) q in
      if Qltb dl dr then
        let* s := if negb cl && Qltb dl (fst s) then sub (left_index i) s else Ok s in
        if negb cr && Qltb dr (fst s) then sub (right_index n i) s else Ok s
      else
        let* s := if negb cr && Qltb dr (fst s) then sub (right_index n i) s else Ok s in
        if negb cl && Qltb dl (fst s) then sub (left_index i) s else Ok s
  end.

(** queryClosestSurfacePoint, lines 401-420; [big] is the largest finite scalar. *)
Definition closest_surface_point (big : Q) : outcome closest :=
  closest_node (S (length (t_flat t))) 0 (big, None).
End Closest.
