(** The pose prior: momentum/character_solver/pose_prior_error_function.{h,cpp}, over the reals.

    [fmax] is std::numeric_limits<T>::max(). kInvalidIndex is None. *)

From Coq Require Import Reals List Arith Bool String.
From Verif Require Import Prelude Loops LinAlg Rbool QR_model Limits_model Mppca_model.
Import ListNotations.
Local Open Scope R_scope.
Local Open Scope outcome_scope.

(** The members. [pr_names] are the names of the parameter transform, one for each model parameter. *)
Record prior_fn : Type := PriorFn {
  pr_names : list string;
  pr_weight : R;
  pr_prior : option mixture;
  pr_map : list (option nat);   (* ppMap_ *)
  pr_inv : list (option nat)    (* invMap_ *)
}.

(** kPosePriorWeight, pose_prior_error_function.h:72. *)
Definition kPosePriorWeight : R := / 1000.

(** std::vector::resize *)
Definition resize {A} (l : list A) (n : nat) (a : A) : list A := firstn n l ++ repeat a (n - List.length l).

(** loadInternal, lines 40-55, for a prior that is not null. *)
Definition load_internal (E : prior_fn) (m : mixture) : outcome prior_fn :=
  let ns := mx_names m in
  let mp := resize (pr_map E) (List.length ns) None in
  let iv := resize (pr_inv E) (List.length (pr_names E)) None in
  let* r := ofold (fun i st =>
      ofold (fun j st =>
        let* a := rd ns i in let* b := rd (pr_names E) j in
        if String.eqb a b then
          let* mp := wr (fst st) i (Some j) in
          let* iv := wr (snd st) j (Some i) in
          Ok (mp, iv)
        else Ok st) (seq 0 (List.length (pr_names E))) st)
    (seq 0 (List.length ns)) (mp, iv) in
  Ok (PriorFn (pr_names E) (pr_weight E) (Some m) (fst r) (snd r)).

(** The constructor, lines 17-26, and setPosePrior, lines 33-38; the latter uses the pointer without
    a test. *)
Definition prior_new (names : list string) (weight : R) (pp : option mixture) : outcome prior_fn :=
  let E := PriorFn names weight pp [] [] in
  match pp with Some m => load_internal E m | None => Ok E end.
Definition prior_set (E : prior_fn) (pp : option mixture) : outcome prior_fn :=
  match pp with Some m => load_internal E m | None => UB end.

(** mapParameters, lines 57-66. *)
Fixpoint map_parameters (p : list R) (mp : list (option nat)) : outcome (list R) :=
  match mp with
  | [] => Ok []
  | e :: r =>
    let* x := match e with Some j => rd p j | None => Ok 0 end in
    let* xs := map_parameters p r in
    Ok (x :: xs)
  end.

(** subParams - mu.row(c).transpose(): Eigen asserts equal sizes. *)
Definition vec_sub (a b : list R) : outcome (list R) :=
  if (List.length a =? List.length b)%nat then Ok (map (fun xy => fst xy - snd xy) (combine a b)) else CheckFail.

(** getBestFitMode, lines 223-257: bestIdx, bestDiff, bestR, minDist. *)
Definition best_state : Type := option nat * list R * R * R.
Definition best_step (m : mixture) (sub : list R) (c : nat) (st : best_state) : outcome best_state :=
  let* mu := rd (mx_mu m) c in
  let* diff := vec_sub sub mu in
  let* C := rd (mx_Cinv m) c in
  let* rpre := rd (mx_Rpre m) c in
  let n := List.length diff in
  let sq := sumn n (fun j => sumn n (fun i => / 2 * nth i diff 0 * C i j) * nth j diff 0) in
  let r := rpre - sq in
  let '(_, _, bestR, _) := st in
  Ok (if Rltb bestR r then (Some c, diff, r, sq) else st).
Definition get_best (fmax : R) (E : prior_fn) (p : list R) : outcome best_state :=
  let st := (None, [], - fmax, fmax) in
  match pr_prior E with
  | None => Ok st
  | Some m =>
    let* sub := map_parameters p (pr_map E) in
    ofold (best_step m sub) (seq 0 (mx_p m)) st
  end.

(** logProbability, lines 69-85, and getError, lines 87-93. *)
Definition log_probability (fmax : R) (E : prior_fn) (p : list R) : outcome R :=
  if (List.length (pr_inv E) =? List.length p)%nat then
    let* st := get_best fmax E p in
    let '(_, _, _, minDist) := st in Ok (- minDist)
  else Ok 0.
Definition prior_error (fmax : R) (E : prior_fn) (p : list R) : outcome R :=
  let* l := log_probability fmax E p in Ok (- l * kPosePriorWeight * pr_weight E).

(** getGradient, lines 95-136. *)
Definition prior_gradient (fmax : R) (E : prior_fn) (p g : list R) : outcome (R * list R) :=
  match pr_prior E with
  | None => Ok (0, g)
  | Some m =>
    if (List.length (pr_inv E) =? List.length p)%nat then
      let* st := get_best fmax E p in
      let '(idx, diff, _, minDist) := st in
      match idx with
      | None => Ok (0, g)
      | Some c =>
        let* g := ofold (fun i g =>
            let* e := rd (pr_map E) i in
            match e with
            | Some j =>
              let* C := rd (mx_Cinv m) c in
              add_at g j (sumn (List.length diff) (fun k => nth k diff 0 * C k i) * kPosePriorWeight * pr_weight E)
            | None => Ok g
            end) (seq 0 (mx_d m)) g in
        Ok (minDist * kPosePriorWeight * pr_weight E, g)
      end
    else Ok (0, g)
  end.

(** getJacobianSize, lines 138-145. *)
Definition prior_jsize (E : prior_fn) : nat := match pr_prior E with Some m => mx_d m | None => 0%nat end.

(** getJacobian, lines 147-206: the error, the rows with their residuals, usedRows. A column of the
    factor that does not exist fails Eigen's assertion. *)
Definition jac_cell (d : nat) (M : mat) (r : nat) (e : option nat) : outcome R :=
  match e with
  | Some c => if (c <? d)%nat then Ok (M r c) else CheckFail
  | None => Ok 0
  end.
Fixpoint jac_cells (d : nat) (M : mat) (r : nat) (iv : list (option nat)) : outcome (list R) :=
  match iv with
  | [] => Ok []
  | e :: iv => let* x := jac_cell d M r e in let* xs := jac_cells d M r iv in Ok (x :: xs)
  end.
Definition prior_jacobian (fmax : R) (E : prior_fn) (p : list R) : outcome (R * list (list R * R) * nat) :=
  match pr_prior E with
  | None => Ok (0, [], 0%nat)
  | Some m =>
    if (List.length (pr_inv E) =? List.length p)%nat then
      let* st := get_best fmax E p in
      let '(idx, diff, _, minDist) := st in
      match idx with
      | None => Ok (0, [], 0%nat)
      | Some c =>
        let wgt := sqrt (/ 2 * kPosePriorWeight * pr_weight E) in
        let* L := rd (mx_L m) c in
        let M : mat := fun i j => L i j * wgt in
        let* rows := ofold (fun r rows =>
            let* row := jac_cells (mx_d m) M r (pr_inv E) in
            Ok (rows ++ [(row, sumn (mx_d m) (fun k => M r k * nth k diff 0))])) (seq 0 (mx_d m)) [] in
        Ok (minDist * kPosePriorWeight * pr_weight E, rows, mx_d m)
      end
    else Ok (0, [], 0%nat)
  end.

(** getMeanShape, lines 208-221. *)
Definition prior_mean_shape (fmax : R) (E : prior_fn) (p : list R) : outcome (list R) :=
  let* st := get_best fmax E p in
  let '(idx, _, _, _) := st in
  match pr_prior E, idx with
  | Some m, Some c => let* mu := rd (mx_mu m) c in map_parameters mu (pr_inv E)
  | _, _ => Ok (repeat 0 (List.length (pr_names E)))
  end.
