(** Shared memory written by the tasks of a dispenso::parallel_for: numbers that
    are set (x = v) or added to (x += v, a load followed by a store). *)

From Coq Require Import Bool Reals List Arith.
From Verif Require Import Prelude Loops.
Import ListNotations.
Local Open Scope outcome_scope.

(** gradient[i], jacobian(row, col), residual[row], jointErrors[joint]. *)
Inductive mcell : Type :=
| MGrad (i : nat) | MJac (r c : nat) | MRes (r : nat) | MErr (j : nat).
Definition mcell_eqb (a b : mcell) : bool :=
  match a, b with
  | MGrad i, MGrad k => Nat.eqb i k
  | MJac r c, MJac r' c' => Nat.eqb r r' && Nat.eqb c c'
  | MRes r, MRes r' => Nat.eqb r r'
  | MErr j, MErr k => Nat.eqb j k
  | _, _ => false
  end.

(** x += v and x = v, e.g. simd_position_error_function.cpp:227 and 363-371. *)
Inductive maction : Type := MAdd (c : mcell) (v : R) | MSet (c : mcell) (v : R).
Definition ma_cell (a : maction) : mcell := match a with MAdd c _ | MSet c _ => c end.

(** The sizes of gradient, jacobian, residual and jointErrors. *)
Record mshape : Type := MShape { m_grad : nat; m_rows : nat; m_cols : nat; m_res : nat; m_err : nat }.
Definition cell_ok (H : mshape) (c : mcell) : bool :=
  match c with
  | MGrad i => Nat.ltb i (m_grad H)
  | MJac r c => Nat.ltb r (m_rows H) && Nat.ltb c (m_cols H)
  | MRes r => Nat.ltb r (m_res H)
  | MErr j => Nat.ltb j (m_err H)
  end.

Definition mem : Type := mcell -> R.
Definition mset (m : mem) (c : mcell) (v : R) : mem := fun c' => if mcell_eqb c c' then v else m c'.

(** One action as a whole: the program on one thread. *)
Definition run_action (H : mshape) (a : maction) (m : mem) : outcome mem :=
  if cell_ok H (ma_cell a)
  then Ok (match a with MAdd c v => mset m c (m c + v)%R | MSet c v => mset m c v end)
  else UB.
Definition run_actions (H : mshape) (l : list maction) (m : mem) : outcome mem := ofold (run_action H) l m.

(** A task in progress: what it still has to do, and the number it has loaded for
    the addition at the head. *)
Definition task : Type := (list maction * option R)%type.
Definition task_step (H : mshape) (m : mem) (t : task) : outcome (mem * task) :=
  match t with
  | ([], _) => Ok (m, t)
  | (a :: l, loaded) =>
      if cell_ok H (ma_cell a) then
        match a, loaded with
        | MSet c v, _ => Ok (mset m c v, (l, None))
        | MAdd c v, None => Ok (m, (a :: l, Some (m c)))
        | MAdd c v, Some x => Ok (mset m c (x + v)%R, (l, None))
        end
      else UB
  end.
Definition par_step (H : mshape) (i : nat) (s : mem * list task) : outcome (mem * list task) :=
  match nth_error (snd s) i with
  | None => Ok s
  | Some t =>
      let* (m, t') := task_step H (fst s) t in
      let* ts := wr (snd s) i t' in
      Ok (m, ts)
  end.
(** A schedule names the task that acts next. *)
Definition par_run (H : mshape) (sched : list nat) (s : mem * list task) : outcome (mem * list task) :=
  ofold (par_step H) sched s.
Definition start_tasks (l : list (list maction)) : list task := map (fun a => (a, None)) l.
