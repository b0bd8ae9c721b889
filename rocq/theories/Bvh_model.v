(** Model of axel/axel/Bvh.h and Bvh.cpp: the bounding volume hierarchy.

    Indices are natural numbers; the 32-bit fields that take part in sentinel arithmetic
    (rightOffset, parent) are [N] with wrapping. [cap] is the template argument LeafCapacity. Writing
    past the end of a fixed-size stack is [UB]. Scalars are rational, see Box_model. *)

From Coq Require Import List Arith NArith QArith Bool.
From Verif Require Import Prelude Loops Box_model.
Import ListNotations.
Local Open Scope outcome_scope.
Local Open Scope nat_scope.

(** Bvh.h:37-51. *)
Record node := { n_box : box; n_start : nat; n_prims : nat; n_right : N }.
Definition is_leaf (n : node) : bool := (n_right n =? 0)%N.
Definition left_index (i : nat) : nat := i + 1.
Definition right_index (n : node) (i : nat) : nat := i + N.to_nat (n_right n).

(** Bvh.cpp:228-230. *)
Definition kUntouched : N := (2 ^ 32 - 1)%N.
Definition kTouchedTwice : N := (2 ^ 32 - 3)%N.
Definition kRootParent : N := (2 ^ 32 - 4)%N.
Definition wrap32 (n : nat) : N := (N.of_nat n mod 2 ^ 32)%N.
Definition dec32 (n : N) : N := if (n =? 0)%N then kUntouched else (n - 1)%N.

(** Bvh.cpp:206-212. *)
Record entry := { e_parent : N; e_start : nat; e_end : nat }.
(** nodeCount_ is the number of nodes in the flat tree. The head of the stack is its top. *)
Record bstate := { b_flat : list node; b_prims : list box; b_stack : list entry }.

(** Lines 257-262: the box of the primitives and the box of their centers. *)
Definition bounds (prims : list box) (start e : nat) : outcome (box * box) :=
  let* b0 := rd prims start in
  ofold (fun p bb => let* q := rd prims p in Ok (extend (fst bb) q, extend_point (snd bb) (center q)))
    (seq (start + 1) (e - (start + 1))) (b0, box_of_point (center b0)).

(** Lines 274-282: the child touches its parent; [count] is nodeCount_. *)
Definition touch (flat : list node) (parent : N) (count : nat) : outcome (list node) :=
  if (parent =? kRootParent)%N then Ok flat
  else
    let p := N.to_nat parent in
    let* n := rd flat p in
    let r := dec32 (n_right n) in
    let r := if (r =? kTouchedTwice)%N then wrap32 (count - 1 - p) else r in
    wr flat p {| n_box := n_box n; n_start := n_start n; n_prims := n_prims n; n_right := r |}.

(** Line 303. *)
Definition goes_left (d : dim) (c : Q) (b : box) : bool :=
  Qle_bool (at3 (hi b) d) c || (Qle_bool (at3 (lo b) d) c && Qltb (at3 (hi b) d) (2 * c - at3 (lo b) d)).

(** Lines 298-309: partition of the range. *)
Definition partition_step (d : dim) (c : Q) (i : nat) (s : list box * nat) : outcome (list box * nat) :=
  let* q := rd (fst s) i in
  if goes_left d c q then
    if i =? snd s then Ok (fst s, S (snd s))
    else
      let* m := rd (fst s) (snd s) in
      let* ps := wr (fst s) i m in
      let* ps := wr ps (snd s) q in
      Ok (ps, S (snd s))
  else Ok s.

(** The body of the loop of build, lines 246-327, after popping [e]. *)
Definition build_step (cap : nat) (e : entry) (flat : list node) (prims : list box) (rest : list entry)
  : outcome bstate :=
  let count := e_end e - e_start e in
  let* bb := bounds prims (e_start e) (e_end e) in
  let leaf := count <=? cap in
  let cur := {| n_box := fst bb; n_start := e_start e; n_prims := count; n_right := if leaf then 0%N else kUntouched |} in
  let flat := flat ++ [cur] in
  let nodes := length flat in
  let* flat := touch flat (e_parent e) nodes in
  if leaf then Ok {| b_flat := flat; b_prims := prims; b_stack := rest |}
  else
    let d := max_dim (snd bb) in
    let c := ((1 # 2) * (at3 (lo (snd bb)) d + at3 (hi (snd bb)) d))%Q in
    let* pm := ofold (partition_step d c) (seq (e_start e) count) (prims, e_start e) in
    let mid := snd pm in
    let mid := if (mid =? e_start e) || (mid =? e_end e) then e_start e + count / 2 else mid in
    let parent := wrap32 (nodes - 1) in
    if 128 <? length rest + 2 then UB
    else Ok {| b_flat := flat; b_prims := fst pm;
               b_stack := {| e_parent := parent; e_start := e_start e; e_end := mid |} ::
                          {| e_parent := parent; e_start := mid; e_end := e_end e |} :: rest |}.

Fixpoint build_loop (cap fuel : nat) (st : bstate) : outcome bstate :=
  match b_stack st with
  | [] => Ok st
  | e :: rest =>
    match fuel with
    | 0 => OutOfFuel
    | S f => let* st' := build_step cap e (b_flat st) (b_prims st) rest in build_loop cap f st'
    end
  end.

(** A tree: flatTree_ and buildPrimitives_ (Bvh.h:187-190). *)
Record bvh := { t_flat : list node; t_prims : list box }.

(** build, lines 215-328, on the primitives given. The loop makes one node per round and a tree over
    n primitives has less than 2 n nodes, so the fuel suffices (theorem build_total). *)
Definition build (cap : nat) (prims : list box) : outcome bvh :=
  match prims with
  | [] => Ok {| t_flat := []; t_prims := [] |}
  | _ =>
    let* st := build_loop cap (2 * length prims)
      {| b_flat := []; b_prims := prims;
         b_stack := [{| e_parent := kRootParent; e_start := 0; e_end := length prims |}] |} in
    Ok {| t_flat := b_flat st; t_prims := b_prims st |}
  end.

(** ** Queries *)

(** The primitives of a leaf, BvhFlatNode::eachPrimitive (Bvh.h:214-236 and the like). *)
Fixpoint read_range (prims : list box) (start n : nat) : outcome (list box) :=
  match n with
  | 0 => Ok []
  | S k => let* b := rd prims start in let* r := read_range prims (start + 1) k in Ok (b :: r)
  end.

(** kMaxStackDepth, Bvh.h:89; pushing onto the stack. *)
Definition push (i : nat) (stack : list nat) : outcome (list nat) :=
  if length stack <? 64 then Ok (i :: stack) else UB.

Section Walk.
Context {A : Type}.
Variables (t : bvh) (test : box -> bool) (leaf : list box -> A -> outcome A) (go_on : A -> bool).

(** The loop that all stack-based queries share. *)
Fixpoint walk (fuel : nat) (stack : list nat) (a : A) : outcome A :=
  match stack with
  | [] => Ok a
  | i :: rest =>
    if negb (go_on a) then Ok a
    else
      match fuel with
      | 0 => OutOfFuel
      | S f =>
        let* n := rd (t_flat t) i in
        if is_leaf n then
          let* ps := read_range (t_prims t) (n_start n) (n_prims n) in
          let* a' := leaf ps a in walk f rest a'
        else
          let* l := rd (t_flat t) (left_index i) in
          let* r := rd (t_flat t) (right_index n i) in
          let* s1 := if test (n_box l) then push (left_index i) rest else Ok rest in
          let* s2 := if test (n_box r) then push (right_index n i) s1 else Ok s1 in
          walk f s2 a
      end
  end.
End Walk.

Definition always {A} (_ : A) : bool := true.

(** query(box), Bvh.cpp:58-90. *)
Definition query (t : bvh) (q : box) : outcome (list nat) :=
  if length (t_flat t) =? 0 then Ok []
  else walk t (fun b => box_intersects b q) (fun ps hits => Ok (hits ++ map bid ps)) always (length (t_flat t)) [0] [].

(** query(box, buffer), lines 92-124: the buffer of [size] entries, of which those written so far
    are kept. *)
Definition write_hit (size : nat) (b : box) (hits : list nat) : outcome (list nat) :=
  if length hits <? size then Ok (hits ++ [bid b]) else UB.
Definition query_buffer (t : bvh) (q : box) (size : nat) : outcome (list nat) :=
  if length (t_flat t) =? 0 then Ok []
  else walk t (fun b => box_intersects b q) (fun ps hits => ofold (write_hit size) ps hits)
         (fun hits => length hits <? size) (length (t_flat t)) [0] [].

(** query(origin, direction), lines 126-160: no check for an empty tree. *)
Definition query_ray (t : bvh) (o v : q3) : outcome (list nat) :=
  walk t (fun b => ray_intersects b o v)
    (fun ps hits => Ok (hits ++ map bid (filter (fun b => ray_intersects b o v) ps))) always (S (length (t_flat t))) [0] [].

(** rayQueryClosestHit, Bvh.h:541-580; [func] is the callback with its state (result and maxT). *)
Definition ray_closest_hit {A} (big : Q) (t : bvh) (o v : q3) (func : nat -> A -> A) (init : A) : outcome A :=
  walk t (fun b => ray_intersects_branchless big b o (inverse3 v))
    (fun ps a => Ok (fold_left (fun a b => func (bid b) a) ps a)) always (S (length (t_flat t))) [0] init.

(** rayQueryAnyHit, Bvh.h:582-619: the state is the answer; the loop over a leaf and the traversal
    stop at the first hit. *)
Definition ray_any_hit (big : Q) (t : bvh) (o v : q3) (func : nat -> bool) : outcome bool :=
  walk t (fun b => ray_intersects_branchless big b o (inverse3 v))
    (fun ps _ => Ok (existsb (fun b => func (bid b)) ps)) negb (S (length (t_flat t))) [0] false.

(** ** Refit *)

(** refitRecurse, Bvh.cpp:174-196; [fuel] bounds the depth. *)
Fixpoint refit_node (fuel : nat) (prims : list box) (i : nat) (flat : list node) : outcome (list node) :=
  match fuel with
  | 0 => OutOfFuel
  | S f =>
    let* n := rd flat i in
    if is_leaf n then
      let* b0 := rd prims (n_start n) in
      let* ps := read_range prims (n_start n + 1) (n_prims n - 1) in
      wr flat i {| n_box := fold_left extend ps b0; n_start := n_start n; n_prims := n_prims n; n_right := n_right n |}
    else
      let* flat := refit_node f prims (left_index i) flat in
      let* flat := refit_node f prims (right_index n i) flat in
      let* l := rd flat (left_index i) in
      let* r := rd flat (right_index n i) in
      wr flat i {| n_box := extend (extend (n_box n) (n_box l)) (n_box r); n_start := n_start n; n_prims := n_prims n;
                   n_right := n_right n |}
  end.

(** refit, lines 198-205, after the primitives were changed to [prims] through getPrimitives(). *)
Definition refit (t : bvh) (prims : list box) : outcome bvh :=
  if length (t_flat t) =? 0 then Ok {| t_flat := t_flat t; t_prims := prims |}
  else
    let* flat := refit_node (length (t_flat t)) prims 0 (t_flat t) in
    Ok {| t_flat := flat; t_prims := prims |}.

(** checkBoundingBoxes, lines 332-365. *)
Fixpoint check_node (fuel : nat) (t : bvh) (i : nat) : outcome bool :=
  match fuel with
  | 0 => OutOfFuel
  | S f =>
    let* n := rd (t_flat t) i in
    if is_leaf n then
      let* ps := read_range (t_prims t) (n_start n) (n_prims n) in
      Ok (forallb (contains_box (n_box n)) ps)
    else
      let* l := rd (t_flat t) (left_index i) in
      if negb (contains_box (n_box n) (n_box l)) then Ok false
      else
        let* r := rd (t_flat t) (right_index n i) in
        if negb (contains_box (n_box n) (n_box r)) then Ok false
        else
          let* a := check_node f t (left_index i) in
          let* b := check_node f t (right_index n i) in
          Ok (a && b)
  end.
Definition check (t : bvh) : outcome bool :=
  if length (t_flat t) =? 0 then Ok true else check_node (length (t_flat t)) t 0.
