(** Model of axel/axel/SimdKdTree.cpp: the k-d tree over points, for nDim = 3.

    [W] is the packet size kSimdPacketSize. Scalars are rational numbers, computed exactly; NaN and
    infinities are not modelled. XR_CHECK is an assert (axel/axel/Checks.h:19) and leaves no trace in
    a release build; that build is modelled. Indices of points are [Z] in the stored lanes. *)

From Coq Require Import List Arith ZArith QArith Bool.
From Verif Require Import Prelude Loops Box_model Bvh_pair_model Tri_model.
Import ListNotations.
Local Open Scope outcome_scope.
Local Open Scope nat_scope.

(** kFarValueFloat, SimdKdTree.h:50; INT_MAX; kMaxDepth, line 60. *)
Definition far : q3 := Q3 (10000000000 # 1) (10000000000 # 1) (10000000000 # 1).
Definition int_max : Z := 2147483647.
Definition max_depth : nat := 20.

(** One lane of a PointBlock, SimdKdTree.cpp:81-87; a block is a list of [W] lanes. *)
Record lane := { l_pos : q3; l_idx : Z }.
Definition pad : lane := {| l_pos := far; l_idx := int_max |}.
Definition color := (Q * Q * Q * Q)%type.

(** Node, SimdKdTree.h:163-205: a leaf with its range of blocks, or a split. *)
Inductive knode :=
| KLeaf (b e : nat) (bx : box)
| KNode (v : Q) (d : dim) (l r : nat) (bx : box).
Definition k_box (n : knode) : box := match n with KLeaf _ _ b => b | KNode _ _ _ _ b => b end.

Record kd := { k_nodes : list knode; k_blocks : list (list lane); k_normals : list (list q3); k_colors : list (list color);
               k_depth : nat; k_count : nat }.

Notation item := (nat * q3)%type.   (* std::pair<SizeType, Vec> *)

(** std::partition and std::nth_element: the standard fixes their result only up to order, so that
    they are arguments of the model (see Kd_spec for what they guarantee). *)
Record algos := { do_partition : (item -> bool) -> list item -> list item * list item;
                  do_nth : dim -> nat -> list item -> list item }.

Section Build.
Variables (W : nat) (A : algos) (normals : list q3) (colors : list color).

(** createLeafNode, lines 830-910: the points in blocks of [W], the last one filled up. *)
Definition lane_of (p : item) : lane := {| l_pos := snd p; l_idx := Z.of_nat (fst p) |}.
Definition fill {X} (l : list X) (x : X) : list X := l ++ repeat x (W - length l).
Definition read_all {X} (l : list X) (ps : list item) : outcome (list X) :=
  ofold (fun p acc => let* x := rd l (fst p) in Ok (acc ++ [x])) ps [].
Fixpoint add_blocks (fuel : nat) (seg : list item) (t : kd) : outcome kd :=
  match seg with
  | [] => Ok t
  | _ =>
    match fuel with
    | 0 => OutOfFuel
    | S f =>
      let cur := firstn W seg in
      let* ns := if length normals =? 0 then Ok [] else read_all normals cur in
      let* cs := if length colors =? 0 then Ok [] else read_all colors cur in
      add_blocks f (skipn W seg)
        {| k_nodes := k_nodes t; k_blocks := k_blocks t ++ [fill (map lane_of cur) pad];
           k_normals := if length normals =? 0 then k_normals t else k_normals t ++ [fill ns (Q3 0 0 0)];
           k_colors := if length colors =? 0 then k_colors t else k_colors t ++ [fill cs (0, 0, 0, 0)%Q];
           k_depth := k_depth t; k_count := k_count t |}
    end
  end.
Definition with_nodes (t : kd) (ns : list knode) : kd :=
  {| k_nodes := ns; k_blocks := k_blocks t; k_normals := k_normals t; k_colors := k_colors t; k_depth := k_depth t; k_count := k_count t |}.
Definition create_leaf (seg : list item) (bx : box) (t : kd) : outcome (nat * kd) :=
  let start := length (k_blocks t) in
  let* t := add_blocks (length seg) seg t in
  Ok (length (k_nodes t), with_nodes t (k_nodes t ++ [KLeaf start (length (k_blocks t)) bx])).

(** Lines 745-749: the box of the points. The range is never empty. *)
Definition points_box (seg : list item) : outcome box :=
  match seg with [] => UB | p :: ps => Ok (fold_left (fun b p => extend_point b (snd p)) ps (box_of_point (snd p))) end.

(** box.diagonal().maxCoeff(&splitDim), lines 764-765: the first largest. *)
Definition split_dim (bx : box) : dim :=
  let e d := (at3 (hi bx) d - at3 (lo bx) d)%Q in
  let '(d, m) := if Qltb (e DX) (e DY) then (DY, e DY) else (DX, e DX) in
  if Qltb m (e DZ) then DZ else d.

Definition with_depth (t : kd) (k : nat) : kd :=
  {| k_nodes := k_nodes t; k_blocks := k_blocks t; k_normals := k_normals t; k_colors := k_colors t; k_depth := k; k_count := k_count t |}.

(** split, lines 734-827; [rem] is kMaxDepth - depth, and [seg] the range of points. *)
Fixpoint split (rem : nat) (seg : list item) (t : kd) : outcome (nat * kd) :=
  let t := with_depth t (Nat.max (max_depth - rem) (k_depth t)) in
  let* bx := points_box seg in
  let n := length seg in
  let blocks := n / W + (if n mod W =? 0 then 0 else 1) in
  if blocks <=? 8 then create_leaf seg bx t
  else
    match rem with
    | 0 => create_leaf seg bx t
    | S rem' =>
      let d := split_dim bx in
      let v := at3 (center bx) d in
      let '(tr, fl) := do_partition A (fun p => Qltb (at3 (snd p) d) v) seg in
      let mid := length tr in
      let* s :=
        if (mid <? W) || (n - mid <? W) then
          let s := do_nth A d (n / 2) (tr ++ fl) in
          let* p := rd s (n / 2) in
          Ok (firstn (n / 2) s, skipn (n / 2) s, at3 (snd p) d)
        else Ok (tr, fl, v) in
      let '(s1, s2, v) := s in
      let id := length (k_nodes t) in
      let t := with_nodes t (k_nodes t ++ [KNode v d 0 0 bx]) in
      let* l := split rem' s1 t in
      let* r := split rem' s2 (snd l) in
      let* ns := wr (k_nodes (snd r)) id (KNode v d (fst l) (fst r) bx) in
      Ok (id, with_nodes (snd r) ns)
    end.

(** init, lines 914-950; the tree of no points has no nodes. *)
Definition kd_make (points : list q3) : outcome kd :=
  let empty := {| k_nodes := []; k_blocks := []; k_normals := []; k_colors := []; k_depth := 0; k_count := length points |} in
  match points with
  | [] => Ok empty
  | _ => let* r := split max_depth (combine (seq 0 (length points)) points) empty in Ok (snd r)
  end.
End Build.

Section Query.
Variables (W : nat) (t : kd) (q : q3).

(** The best squared distance so far and the point found. *)
Definition best := (Q * option Z)%type.

(** The tests of the lanes of block [i], beyond the distance; read only when some lane is closer. *)
Variable filt : nat -> list lane -> outcome (list bool).
(** Two of the queries skip lanes with the index INT_MAX at the end. *)
Variable skip : bool.

(** The loop over the blocks of a leaf, lines 182-197: the best distance and index of each lane. *)
Definition scan_block (i : nat) (bs : list (Q * Z)) : outcome (list (Q * Z)) :=
  let* b := rd (k_blocks t) i in
  let near := fun (x : lane * (Q * Z)) => Qltb (sq_norm (l_pos (fst x)) q) (fst (snd x)) in
  if existsb near (combine b bs) then
    let* oks := filt i b in
    Ok (map (fun x => if near (fst x) && snd x then (sq_norm (l_pos (fst (fst x))) q, l_idx (fst (fst x))) else snd (fst x))
          (combine (combine b bs) oks))
  else Ok bs.

(** Lines 199-215. *)
Definition take_lane (s : best) (l : Q * Z) : best :=
  if skip && (snd l =? int_max)%Z then s
  else if Qltb (fst l) (fst s) then (fst l, Some (snd l)) else s.
Definition scan_leaf (b e : nat) (s : best) : outcome best :=
  let* bs := ofold scan_block (seq b (e - b)) (repeat (fst s, int_max) W) in
  Ok (fold_left take_lane bs s).

(** The stack holds kMaxDepth + 1 nodes. *)
Definition kpush (i : nat) (stack : list nat) : outcome (list nat) :=
  if length stack <? max_depth + 1 then Ok (i :: stack) else UB.

(** The loop, lines 164-241. *)
Fixpoint kd_walk (fuel : nat) (stack : list nat) (s : best) : outcome best :=
  match stack with
  | [] => Ok s
  | i :: rest =>
    match fuel with
    | 0 => OutOfFuel
    | S f =>
      let* n := rd (k_nodes t) i in
      if Qltb (fst s) (sq_dist_to_box (k_box n) q) then kd_walk f rest s
      else
        match n with
        | KLeaf b e _ => let* s := scan_leaf b e s in kd_walk f rest s
        | KNode v d l r _ =>
          let x := at3 q d in
          let sq := ((x - v) * (x - v))%Q in
          if Qle_bool v x then
            let* st := if Qltb sq (fst s) then kpush l rest else Ok rest in
            let* st := kpush r st in kd_walk f st s
          else
            let* st := if Qltb sq (fst s) then kpush r rest else Ok rest in
            let* st := kpush l st in kd_walk f st s
        end
    end
  end.
Definition kd_search (bound : Q) : outcome best :=
  if k_count t =? 0 then Ok (bound, None) else kd_walk (length (k_nodes t)) [0] (bound, None).
End Query.

(** closestPoint, lines 142-244. *)
Definition kd_closest (W : nat) (t : kd) (q : q3) (bound : Q) : outcome best :=
  kd_search W t q (fun _ b => Ok (map (fun _ => true) b)) false bound.

(** closestPoint with normals, lines 246-377. *)
Definition kd_closest_normal (W : nat) (t : kd) (q n : q3) (bound mindot : Q) : outcome best :=
  kd_search W t q (fun i _ => let* ns := rd (k_normals t) i in Ok (map (fun m => Qle_bool mindot (dot3 n m)) ns)) true bound.

(** closestPoint with normals and colors, lines 379-522. *)
Definition color_dist (c k : color) : Q :=
  let '(c0, c1, c2, c3) := c in
  let '(k0, k1, k2, k3) := k in
  (((c0 - k0) * (c0 - k0) + (c1 - k1) * (c1 - k1) + (c2 - k2) * (c2 - k2)) * k3 * c3)%Q.
Definition kd_closest_color (W : nat) (t : kd) (q n : q3) (c : color) (bound mindot maxcolor : Q) : outcome best :=
  kd_search W t q (fun i _ =>
    let* ns := rd (k_normals t) i in
    let* cs := rd (k_colors t) i in
    Ok (map (fun x => Qle_bool mindot (dot3 n (fst x)) && Qle_bool (color_dist c (snd x)) maxcolor) (combine ns cs))) true bound.

(** closestPointWithAcceptance, lines 524-633. *)
Definition kd_closest_accept (W : nat) (t : kd) (q : q3) (bound : Q) (accept : Z -> bool) : outcome best :=
  kd_search W t q (fun _ b => Ok (map (fun l => accept (l_idx l)) b)) false bound.

(** pointsInNSphere, lines 635-718. *)
Definition sphere_block (t : kd) (c : q3) (r : Q) (i : nat) (acc : list Z) : outcome (list Z) :=
  let* b := rd (k_blocks t) i in
  Ok (acc ++ map l_idx (filter (fun l => Qle_bool (sq_norm (l_pos l) c) (r * r)) b)).
Fixpoint sphere_walk (t : kd) (c : q3) (r : Q) (fuel : nat) (stack : list nat) (acc : list Z) : outcome (list Z) :=
  match stack with
  | [] => Ok acc
  | i :: rest =>
    match fuel with
    | 0 => OutOfFuel
    | S f =>
      let* n := rd (k_nodes t) i in
      if Qltb (r * r) (sq_dist_to_box (k_box n) c) then sphere_walk t c r f rest acc
      else
        match n with
        | KLeaf b e _ => let* acc := ofold (sphere_block t c r) (seq b (e - b)) acc in sphere_walk t c r f rest acc
        | KNode v d lc rc _ =>
          let x := at3 c d in
          let* st := if Qle_bool (x - r) v then kpush lc rest else Ok rest in
          let* st := if Qle_bool v (x + r) then kpush rc st else Ok st in
          sphere_walk t c r f st acc
        end
    end
  end.
Definition kd_sphere (t : kd) (c : q3) (r : Q) : outcome (list Z) :=
  if k_count t =? 0 then Ok [] else sphere_walk t c r (length (k_nodes t)) [0] [].
