(** momentum/character_solver/limit_error_function.cpp with all kinds of limits: the ellipsoid limits
    (121-147, 269-351, 493-583) beside those of Limits_model. Scalars are reals. *)

From Coq Require Import Bool Reals List Arith.
From Verif Require Import Prelude LinAlg Rbool R3 Transform_model Skeleton_model FK_model ParamTransform_model
  Limits_model Constraint_model Skin_model CharUtil_model.
Import ListNotations.
Local Open Scope R_scope.
Local Open Scope outcome_scope.

(** The members of LimitErrorFunctionT and of its base class skeleton_error_function.h:118-125. *)
Record xlimit_fn : Type := XLim {
  xl_limits : list flimit;
  xl_weight : R;
  xl_enabled : pset;
  xl_active : list bool;
  xl_pt : ptransform;
  xl_sk : skeleton
}.

(** What the limits of the other kinds read. *)
Definition xl_base (X : xlimit_fn) : limit_fn :=
  LimitFn [] (xl_weight X) (xl_enabled X) (xl_active X) (pt_entries (xl_pt X)) (pt_cols (xl_pt X)).

(** kPositionWeight, limit_error_function.cpp:19. The literal 1e-4f is taken as the real number. *)
Definition kPositionWeight : R := / 10000.

(** One limit of getError, 57-153. *)
Definition lx_err1 (X : xlimit_fn) (p jp : list R) (sts : list jstate) (l : flimit) : outcome R :=
  match ldata (fl_limit l) with
  | LEllipsoid _ _ =>
      let* diff := ellipsoid_diff sts l in
      Ok (vdot diff diff * kPositionWeight * lweight (fl_limit l))
  | _ => lim_err1 (xl_base X) p jp (fl_limit l)
  end.

Fixpoint lx_err_sum (X : xlimit_fn) (p jp : list R) (sts : list jstate) (ls : list flimit) : outcome R :=
  match ls with
  | [] => Ok 0
  | l :: r => let* a := lx_err1 X p jp sts l in let* b := lx_err_sum X p jp sts r in Ok (a + b)
  end.

(** getError, 40-159. [jp] is state.jointParameters; its size is checked (44-46). *)
Definition lx_error (X : xlimit_fn) (p jp : list R) (sts : list jstate) : outcome R :=
  let* _ := check (Nat.eqb (length jp) (length (xl_sk X) * 7)) in
  let* s := lx_err_sum X p jp sts (xl_limits X) in Ok (s * kLimitWeight * xl_weight X).

(** The walk "while (jointIndex != ct.ellipsoidParent && jointIndex != kInvalidIndex)", 302-346 and
    531-575, from joint [j]; [term] is the body. *)
Fixpoint ell_walk {A} (fuel : nat) (sk : skeleton) (sts : list jstate) (stop : nat)
  (term : nat -> jstate -> outcome (list A)) (j : option nat) : outcome (list A) :=
  match j with
  | None => Ok []
  | Some k =>
      if Nat.eqb k stop then Ok [] else
      match fuel with
      | O => OutOfFuel
      | S f =>
          match nth_error sk k with
          | None => CheckFail
          | Some jt =>
              let* s := rd sts k in
              let* a := term k s in
              let* b := ell_walk f sk sts stop term (jparent jt) in
              Ok (a ++ b)
          end
      end
  end.

(** One joint: the active joint parameters, in the order of 312-342, with the derivative of the
    position. *)
Definition ell_dofs (active : list bool) (position : vec3) (k : nat) (s : jstate) : outcome (list (nat * vec3)) :=
  let posd := vsub position (trans (js_world s)) in
  active_dofs active (k * 7)
    [(0%nat, get_translation_derivative s 0); (3%nat, get_rotation_derivative s 0 posd);
     (1%nat, get_translation_derivative s 1); (4%nat, get_rotation_derivative s 1 posd);
     (2%nat, get_translation_derivative s 2); (5%nat, get_rotation_derivative s 2 posd);
     (6%nat, get_scale_derivative s posd)].

Definition ell_terms (X : xlimit_fn) (sts : list jstate) (l : flimit) : outcome (list (nat * vec3)) :=
  match ldata (fl_limit l) with
  | LEllipsoid e p =>
      let* sp := rd sts p in
      let position := aff_point (tf_affine (js_world sp)) (fl_offset l) in
      ell_walk (length (xl_sk X)) (xl_sk X) sts e (ell_dofs (xl_active X) position) (Some p)
  | _ => UB
  end.

(** The multiplication with the rows of the parameter transform, 316-323. *)
Definition spread (es : list entry) (ts : list (nat * vec3)) (f : vec3 -> R) : list (nat * R) :=
  flat_map (fun rv => row_incs es (fst rv) (f (snd rv))) ts.

(** One limit of getGradient, 178-356. *)
Definition lx_grad1 (X : xlimit_fn) (p jp : list R) (sts : list jstate) (l : flimit) : outcome (R * list (nat * R)) :=
  match ldata (fl_limit l) with
  | LEllipsoid _ _ =>
      let tW := kLimitWeight * xl_weight X in
      let* diff := ellipsoid_diff sts l in
      let wgt := 2 * kPositionWeight * lweight (fl_limit l) * tW in
      let* ts := ell_terms X sts l in
      Ok (vdot diff diff * kPositionWeight * tW * lweight (fl_limit l),
          spread (pt_entries (xl_pt X)) ts (fun d => vdot diff d * wgt))
  | _ => lim_grad1 (xl_base X) p jp (fl_limit l)
  end.

Fixpoint lx_grad_loop (X : xlimit_fn) (p jp : list R) (sts : list jstate) (ls : list flimit) (g : list R)
  : outcome (R * list R) :=
  match ls with
  | [] => Ok (0, g)
  | l :: r =>
      let* (e, incs) := lx_grad1 X p jp sts l in
      let* g' := add_all g incs in
      let* (e', g'') := lx_grad_loop X p jp sts r g' in
      Ok (e + e', g'')
  end.

(** getGradient, 162-361. *)
Definition lx_gradient (X : xlimit_fn) (p jp : list R) (sts : list jstate) (g : list R) : outcome (R * list R) :=
  lx_grad_loop X p jp sts (xl_limits X) g.

(** One limit of getJacobian, 386-583: error increment and rows with residuals. An ellipsoid limit fills
    three rows, one per coordinate. *)
Definition lx_jac1 (X : xlimit_fn) (p jp : list R) (sts : list jstate) (l : flimit) : outcome (R * list (list R * R)) :=
  match ldata (fl_limit l) with
  | LEllipsoid _ _ =>
      let* diff := ellipsoid_diff sts l in
      let* _ := check (Nat.eqb (length p) (pt_cols (xl_pt X))) in
      let jwgt := sqrt (kLimitWeight * kPositionWeight * xl_weight X * lweight (fl_limit l)) in
      let* ts := ell_terms X sts l in
      let zrow := repeat 0 (pt_cols (xl_pt X)) in
      let* rx := add_all zrow (spread (pt_entries (xl_pt X)) ts (fun d => vx d * jwgt)) in
      let* ry := add_all zrow (spread (pt_entries (xl_pt X)) ts (fun d => vy d * jwgt)) in
      let* rz := add_all zrow (spread (pt_entries (xl_pt X)) ts (fun d => vz d * jwgt)) in
      Ok (jwgt * jwgt * vdot diff diff, [(rx, vx diff * jwgt); (ry, vy diff * jwgt); (rz, vz diff * jwgt)])
  | _ => lim_jac1 (xl_base X) p jp (fl_limit l)
  end.

Fixpoint lx_jac_loop (X : xlimit_fn) (p jp : list R) (sts : list jstate) (ls : list flimit) : outcome (R * list (list R * R)) :=
  match ls with
  | [] => Ok (0, [])
  | l :: r =>
      let* (e, rows) := lx_jac1 X p jp sts l in
      let* (e', rows') := lx_jac_loop X p jp sts r in
      Ok (e + e', rows ++ rows')
  end.

(** getJacobian, 364-589; usedRows is the number of rows. *)
Definition lx_jacobian (X : xlimit_fn) (p jp : list R) (sts : list jstate) : outcome (R * list (list R * R)) :=
  lx_jac_loop X p jp sts (xl_limits X).
