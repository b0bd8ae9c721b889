(** The error functions over the wide constraint stores:
    momentum/character_solver/simd_{position,plane,normal}_error_function.cpp, the
    drjit versions (not the AVX ones). Scalars are reals; a packet is the list of its
    lanes. Alignment of the memory that drjit::load and drjit::store use is not
    modelled. MT_CHECK is a distinct outcome. *)

From Coq Require Import Bool Reals List Arith.
From Verif Require Import Prelude Loops LinAlg R3 Transform_model FK_model ParamTransform_model
  Limits_model Constraint_model SimdStore_model Cells_model.
Import ListNotations.
Local Open Scope nat_scope.
Local Open Scope R_scope.
Local Open Scope outcome_scope.

Inductive skind : Type := KPosition | KPlane | KNormal.

(** kConstraintDim (3) for positions; a plane or normal constraint has one row. *)
Definition k_dim (k : skind) : nat := match k with KPosition => 3 | _ => 1 end.
(** kPositionWeight, simd_position_error_function.h:110; kPlaneWeight,
    simd_plane_error_function.h:109 and simd_normal_error_function.h:112. *)
Definition kWideWeight : R := / 10 ^ 4.

(** The members the functions read: skeleton_, parameterTransform_, weight_,
    activeJointParams_, constraints_, jacobianOffset_. [sf_dim] are the sizes of the
    store. *)
Record simdfn : Type := SFn {
  sf_kind : skind;
  sf_sk : skeleton;
  sf_pt : ptransform;
  sf_weight : R;
  sf_active : list bool;
  sf_dim : sdim;
  sf_store : option sstore;
  sf_offsets : list nat
}.

(** One lane of the packets that are loaded; the plane has a distance instead of a
    target point, positions have no normal. *)
Record lane : Type := Lane { ln_offset : vec3; ln_normal : vec3; ln_target : vec3; ln_dist : R; ln_weight : R }.

(** drjit::load of lane [s] of array [b], joint [j]. *)
Definition load1 (D : sdim) (st : sstore) (j s b : nat) : outcome R := rd (ss_data st) (ss_addr D (ss_n st) b j s).
Definition load3 (D : sdim) (st : sstore) (j s b : nat) : outcome vec3 :=
  let* x := load1 D st j s b in
  let* y := load1 D st j s (b + 1) in
  let* z := load1 D st j s (b + 2) in
  Ok (V3 x y z).
(** The arrays: simd_position_error_function.cpp:42-48,
    simd_plane_error_function.cpp:42-49, simd_normal_error_function.cpp:43-52. *)
Definition load_lane (k : skind) (D : sdim) (st : sstore) (j s : nat) : outcome lane :=
  match k with
  | KPosition =>
      let* o := load3 D st j s 0 in let* t := load3 D st j s 3 in
      let* w := load1 D st j s 6 in Ok (Lane o vzero t 0 w)
  | KPlane =>
      let* o := load3 D st j s 0 in let* n := load3 D st j s 3 in
      let* d := load1 D st j s 6 in let* w := load1 D st j s 7 in Ok (Lane o n vzero d w)
  | KNormal =>
      let* o := load3 D st j s 0 in let* n := load3 D st j s 3 in let* t := load3 D st j s 6 in
      let* w := load1 D st j s 9 in Ok (Lane o n t 0 w)
  end.
Fixpoint load_lanes (k : skind) (D : sdim) (st : sstore) (j : nat) (ss : list nat) : outcome (list lane) :=
  match ss with
  | [] => Ok []
  | s :: r => let* l := load_lane k D st j s in let* rest := load_lanes k D st j r in Ok (l :: rest)
  end.
(** The packet that starts at [index]. *)
Definition load_packet (k : skind) (D : sdim) (st : sstore) (j index : nat) : outcome (list lane) :=
  load_lanes k D st j (seq index (d_packet D)).

(** for (index = 0; index < constraintCount; index += kSimdPacketSize). *)
Definition packet_starts (D : sdim) (count : nat) : list nat :=
  map (fun i => (i * d_packet D)%nat) (seq 0 ((count + d_packet D - 1) / d_packet D)%nat).

(** pos_world and normal_world (jointRotMat * normal). *)
Definition pos_world (s : jstate) (l : lane) : vec3 := act s (ln_offset l).
Definition normal_world (s : jstate) (l : lane) : vec3 := mvec (qmat (rot (js_world s))) (ln_normal l).

(** diff (simd_position_error_function.cpp:132-137) or dist
    (simd_plane_error_function.cpp:144, simd_normal_error_function.cpp:151). *)
Definition lane_res (k : skind) (l : lane) (s : jstate) : list R :=
  match k with
  | KPosition => vlist (vsub (pos_world s l) (ln_target l))
  | KPlane => [vdot (pos_world s l) (normal_world s l) - ln_dist l]
  | KNormal => [vdot (vsub (pos_world s l) (ln_target l)) (normal_world s l)]
  end.
(** weight * sqr(dist), weight * dot(diff, diff). *)
Definition lane_err (k : skind) (s : jstate) (l : lane) : R := ln_weight l * sqnorm (lane_res k l s).

(** What is multiplied with the weight for joint parameter [d] of the joint with
    state [sa]: the Jacobian of the residual as the code has it.
    simd_position_error_function.cpp:383-385, 405-408, 431-433;
    simd_plane_error_function.cpp:380-382, 391-394, 405;
    simd_normal_error_function.cpp:340-341, 352-357, 369-370. *)
Definition lane_jac (k : skind) (l : lane) (s sa : jstate) (d : nat) : list R :=
  let posd := vsub (pos_world s l) (trans (js_world sa)) in
  let tgtd := vsub (ln_target l) (trans (js_world sa)) in
  let n := normal_world s l in
  match k with
  | KPosition =>
      if Nat.ltb d 3 then vlist (get_translation_derivative sa d)
      else if Nat.ltb d 6 then vlist (vcross (mcol (js_raxis sa) (d - 3)) posd)
      else vlist (vscale (ln 2) posd)
  | KPlane =>
      if Nat.ltb d 3 then [vdot n (get_translation_derivative sa d)]
      else if Nat.ltb d 6 then [vdot n (vcross (mcol (js_raxis sa) (d - 3)) posd)]
      else [vdot n posd * ln 2]
  | KNormal =>
      if Nat.ltb d 3 then [vdot n (get_translation_derivative sa d)]
      else if Nat.ltb d 6 then [- vdot (mcol (js_raxis sa) (d - 3)) (vcross n tgtd)]
      else [vdot n posd * ln 2]
  end.
Definition rdot (a b : list R) : R := rsum (map (fun '(x, y) => x * y) (combine a b)).

(** wgt and val of getGradient: simd_position_error_function.cpp:200, 221-222,
    240-241, 258; simd_plane_error_function.cpp:208, 227-228, 241-242, 257;
    simd_normal_error_function.cpp:200, 219-220, 236-237, 252. *)
Definition grad_wgt (k : skind) (l : lane) (s : jstate) : R :=
  match k with
  | KPosition => 2 * (kWideWeight * ln_weight l)
  | KPlane => 2 * kWideWeight * ln_weight l * rsum (lane_res KPlane l s)
  | KNormal => ln_weight l * (2 * kWideWeight)
  end.
Definition grad_val (k : skind) (l : lane) (s sa : jstate) (d : nat) : R :=
  rdot (lane_res k l s) (lane_jac k l s sa d) * grad_wgt k l s.
(** wgt of getJacobian: simd_position_error_function.cpp:356,
    simd_plane_error_function.cpp:359, simd_normal_error_function.cpp:336. *)
Definition jac_wgt (F : simdfn) (l : lane) : R := sqrt (kWideWeight * sf_weight F * ln_weight l).

(** while (jointIndex != kInvalidIndex); [limit] is the number of joints that
    MT_CHECK compares with; the normal version has no such check. *)
Fixpoint up {A} (fuel : nat) (sk : skeleton) (sts : list jstate) (limit : option nat)
  (term : nat -> jstate -> outcome (list A)) (j : option nat) : outcome (list A) :=
  match j with
  | None => Ok []
  | Some jj =>
      match fuel with
      | O => OutOfFuel
      | S fuel' =>
          if match limit with Some n => Nat.ltb jj n | None => true end then
            let* sa := rd sts jj in
            let* here := term jj sa in
            let* jt := rd sk jj in
            let* rest := up fuel' sk sts limit term (jparent jt) in
            Ok (here ++ rest)
          else CheckFail
      end
  end.
Definition up_limit (k : skind) (st : sstore) : option nat :=
  match k with KNormal => None | _ => Some (ss_n st) end.

(** The tests of activeJointParams_ for the joint parameters [ds] of one joint. *)
Fixpoint dofs {A} (active : list bool) (base : nat) (ds : list nat) (emit : nat -> list A) : outcome (list A) :=
  match ds with
  | [] => Ok []
  | d :: r =>
      let* a := rd active (base + d)%nat in
      let* rest := dofs active base r emit in
      Ok ((if a then emit d else []) ++ rest)
  end.
Definition dof_order : list nat := [0; 3; 1; 4; 2; 5; 6]%nat.
(** simd_normal_error_function.cpp:337-375 takes translations before rotations. *)
Definition jac_order (k : skind) : list nat :=
  match k with KNormal => [0; 1; 2; 3; 4; 5; 6]%nat | _ => dof_order end.

(** The entries of row [r] of the parameter transform. *)
Definition row_of (es : list entry) (r : nat) : list entry := filter (fun e => Nat.eqb (erow e) r) es.

(** One packet of getGradient: gradient[col] += sum(val) * value. *)
Definition grad_emit (F : simdfn) (lanes : list lane) (s : jstate) (a : nat) (sa : jstate) (d : nat) : list maction :=
  map (fun e => MAdd (MGrad (ecol e)) (rsum (map (fun l => grad_val (sf_kind F) l s sa d) lanes) * eval e))
      (row_of (pt_entries (sf_pt F)) (a * 7 + d)).
Definition grad_packet (F : simdfn) (st : sstore) (sts : list jstate) (j : nat) (s : jstate) (lanes : list lane)
  : outcome (list maction) :=
  up (List.length (sf_sk F)) (sf_sk F) sts (up_limit (sf_kind F) st)
    (fun a sa => dofs (sf_active F) (a * 7) dof_order (grad_emit F lanes s a sa)) (Some j).

(** One packet of getJacobian whose rows start at [row0]: the residual is stored and
    jacobian_jointParams_to_modelParams adds to the rows of the packet. Component [c]
    of lane [i] has row row0 + kSimdPacketSize * c + i. *)
Definition jac_row (P row0 c i : nat) : nat := (row0 + P * c + i)%nat.
Definition res_actions (F : simdfn) (row0 : nat) (s : jstate) (lanes : list lane) : list maction :=
  flat_map (fun c => map (fun '(i, l) => MSet (MRes (jac_row (d_packet (sf_dim F)) row0 c i))
                                           (jac_wgt F l * nth c (lane_res (sf_kind F) l s) 0))
                         (combine (seq 0 (List.length lanes)) lanes))
    (seq 0 (k_dim (sf_kind F))).
Definition jac_emit (F : simdfn) (row0 : nat) (lanes : list lane) (s : jstate) (a : nat) (sa : jstate) (d : nat)
  : list maction :=
  flat_map (fun c =>
    flat_map (fun e =>
      map (fun '(i, l) => MAdd (MJac (jac_row (d_packet (sf_dim F)) row0 c i) (ecol e))
                            (eval e * (nth c (lane_jac (sf_kind F) l s sa d) 0 * jac_wgt F l)))
          (combine (seq 0 (List.length lanes)) lanes))
      (row_of (pt_entries (sf_pt F)) (a * 7 + d)))
    (seq 0 (k_dim (sf_kind F))).
Definition jac_packet (F : simdfn) (st : sstore) (sts : list jstate) (j : nat) (s : jstate) (row0 : nat)
  (lanes : list lane) : outcome (list maction) :=
  let* adds := up (List.length (sf_sk F)) (sf_sk F) sts (up_limit (sf_kind F) st)
    (fun a sa => dofs (sf_active F) (a * 7) (jac_order (sf_kind F)) (jac_emit F row0 lanes s a sa)) (Some j) in
  Ok (res_actions F row0 s lanes ++ adds).

(** The loop over the packets of one joint; [body] gets the index of the packet and
    its lanes. At the end the error is added to jointErrors[joint] (the normal
    version of getGradient adds to one register instead). *)
Fixpoint packets (F : simdfn) (st : sstore) (j : nat) (s : jstate)
  (body : nat -> list lane -> outcome (list maction)) (idx : list nat) : outcome (R * list maction) :=
  match idx with
  | [] => Ok (0, [])
  | index :: r =>
      let* lanes := load_packet (sf_kind F) (sf_dim F) st j index in
      let* acts := body index lanes in
      let* x := packets F st j s body r in
      Ok (rsum (map (lane_err (sf_kind F) s) lanes) + fst x, acts ++ snd x)
  end.
Definition joint_task (F : simdfn) (st : sstore) (sts : list jstate) (j : nat)
  (body : jstate -> nat -> list lane -> outcome (list maction)) : outcome (list maction) :=
  let* count := rd (ss_count st) j in
  let* s := rd sts j in
  let* x := packets F st j s (body s) (packet_starts (sf_dim F) count) in
  Ok (snd x ++ [MAdd (MErr j) (fst x)]).
Fixpoint all_tasks (f : nat -> outcome (list maction)) (js : list nat) : outcome (list (list maction)) :=
  match js with
  | [] => Ok []
  | j :: r => let* a := f j in let* rest := all_tasks f r in Ok (a :: rest)
  end.

(** getError: simd_position_error_function.cpp:106-152,
    simd_plane_error_function.cpp:109-155, simd_normal_error_function.cpp:118-163. *)
Fixpoint error_sum (F : simdfn) (st : sstore) (sts : list jstate) (js : list nat) : outcome R :=
  match js with
  | [] => Ok 0
  | j :: r =>
      let* count := rd (ss_count st) j in
      let* s := match nth_error sts j with Some s => Ok s | None => CheckFail end in
      let* x := packets F st j s (fun _ _ => Ok []) (packet_starts (sf_dim F) count) in
      let* rest := error_sum F st sts r in
      Ok (fst x + rest)
  end.
Definition sf_error (F : simdfn) (sts : list jstate) : outcome R :=
  match sf_store F with
  | None => Ok 0
  | Some st =>
      if Nat.leb (ss_n st) (List.length sts) then
        let* e := error_sum F st sts (seq 0 (ss_n st)) in
        Ok (e * kWideWeight * sf_weight F)
      else CheckFail
  end.

(** The tasks of getGradient, simd_position_error_function.cpp:168-270,
    simd_plane_error_function.cpp:168-280, simd_normal_error_function.cpp:173-262
    (the normal version runs them one after the other). *)
Definition sf_grad_tasks (F : simdfn) (st : sstore) (sts : list jstate) : outcome (list (list maction)) :=
  all_tasks (fun j => joint_task F st sts j (fun s _ lanes => grad_packet F st sts j s lanes)) (seq 0 (ss_n st)).
(** The rows of the packet at [index] start at jacobianOffset_[joint] + index *
    dimension (jindex of the position version). *)
Definition sf_jac_tasks (F : simdfn) (st : sstore) (sts : list jstate) : outcome (list (list maction)) :=
  all_tasks (fun j =>
    let* off := rd (sf_offsets F) j in
    joint_task F st sts j
      (fun s index lanes => jac_packet F st sts j s (off + k_dim (sf_kind F) * index) lanes)) (seq 0 (ss_n st)).

Definition grad_shape (gradient : list R) (st : sstore) : mshape := MShape (List.length gradient) 0 0 0 (ss_n st).
Definition grad_mem (gradient : list R) : mem := fun c => match c with MGrad i => nth i gradient 0 | _ => 0 end.
Definition mem_errors (m : mem) (n : nat) : R := rsum (map (fun j => m (MErr j)) (seq 0 n)).

(** getGradient with the tasks one after the other. *)
Definition sf_gradient (F : simdfn) (sts : list jstate) (gradient : list R) : outcome (R * list R) :=
  match sf_store F with
  | None => Ok (0, gradient)
  | Some st =>
      let* ts := sf_grad_tasks F st sts in
      let* m := run_actions (grad_shape gradient st) (concat ts) (grad_mem gradient) in
      Ok (kWideWeight * sf_weight F * mem_errors m (ss_n st),
          map (fun i => m (MGrad i)) (seq 0 (List.length gradient)))
  end.

(** A Jacobian as the list of its rows. *)
Definition jac_shape (rows cols : nat) (residual : list R) (st : sstore) : mshape :=
  MShape 0 rows cols (List.length residual) (ss_n st).
Definition jac_mem (jac : list (list R)) (residual : list R) : mem :=
  fun c => match c with
           | MJac r c => nth c (nth r jac []) 0
           | MRes r => nth r residual 0
           | _ => 0
           end.
(** getJacobian with the tasks one after the other: the error, the matrix, the
    residual and usedRows, [None] if it is not assigned.
    simd_position_error_function.cpp:296-468, simd_plane_error_function.cpp:301-428,
    simd_normal_error_function.cpp:284-403. [cols] is jacobian.cols(). *)
Definition sf_jacobian (F : simdfn) (sts : list jstate) (cols : nat) (jac : list (list R)) (residual : list R)
  : outcome (R * list (list R) * list R * option nat) :=
  let check := Nat.eqb cols (pt_cols (sf_pt F)) in
  match sf_store F with
  | None => if match sf_kind F with KPosition => true | _ => check end then Ok (0, jac, residual, None) else CheckFail
  | Some st =>
      if check then
        if Nat.leb (ss_n st) (List.length (sf_offsets F)) then
          let* ts := sf_jac_tasks F st sts in
          let* m := run_actions (jac_shape (List.length jac) cols residual st) (concat ts) (jac_mem jac residual) in
          Ok (kWideWeight * sf_weight F * mem_errors m (ss_n st),
              map (fun r => map (fun c => m (MJac r c)) (seq 0 cols)) (seq 0 (List.length jac)),
              map (fun r => m (MRes r)) (seq 0 (List.length residual)),
              Some (List.length jac))
        else CheckFail
      else CheckFail
  end.

(** getJacobianSize fills jacobianOffset_: simd_position_error_function.cpp:470-488,
    simd_plane_error_function.cpp:430-445, simd_normal_error_function.cpp:405-419. *)
Definition joint_rows (k : skind) (P count : nat) : nat :=
  match k with
  | KPosition =>
      let residual := (count mod P)%nat in
      if negb (Nat.eqb residual 0) then ((count + P - residual) * 3)%nat else (count * 3)%nat
  | _ => ((count + P - 1) / P * P)%nat
  end.
Fixpoint offsets_from (F : simdfn) (st : sstore) (num : nat) (js : list nat) : outcome (nat * list nat) :=
  match js with
  | [] => Ok (num, [])
  | j :: r =>
      let* count := rd (ss_count st) j in
      let* x := offsets_from F st (num + joint_rows (sf_kind F) (d_packet (sf_dim F)) count) r in
      Ok (fst x, num :: snd x)
  end.
Definition sf_jacobian_size (F : simdfn) : outcome (nat * simdfn) :=
  match sf_store F with
  | None => Ok (0%nat, F)
  | Some st =>
      let* x := offsets_from F st 0 (seq 0 (ss_n st)) in
      Ok (fst x, SFn (sf_kind F) (sf_sk F) (sf_pt F) (sf_weight F) (sf_active F) (sf_dim F) (sf_store F) (snd x))
  end.
