(** What forward kinematics should compute, stated with plain rotation
    matrices and explicit parent paths. *)

From Coq Require Import Reals List.
From Coquelicot Require Import Coquelicot.
From Verif Require Import R3 Transform_model FK_model.
Import ListNotations.
Local Open Scope R_scope.

(** Rotations about the coordinate axes. *)
Definition Rx (a : R) (v : vec3) : vec3 :=
  V3 (vx v) (cos a * vy v - sin a * vz v) (sin a * vy v + cos a * vz v).
Definition Ry (a : R) (v : vec3) : vec3 :=
  V3 (cos a * vx v + sin a * vz v) (vy v) (- sin a * vx v + cos a * vz v).
Definition Rz (a : R) (v : vec3) : vec3 :=
  V3 (cos a * vx v - sin a * vy v) (sin a * vx v + cos a * vy v) (vz v).

(** One joint maps its frame to its parent's frame:
    T(offset + t) * preRotation * Rz * Ry * Rx * 2^s. *)
Definition joint_map (jt : joint) (p : jparam) (x : vec3) : vec3 :=
  vadd (vadd (joffset jt) (V3 (jtx p) (jty p) (jtz p)))
       (mvec (qmat (jprerot jt))
             (Rz (jrz p) (Ry (jry p) (Rx (jrx p) (vscale (Rpower 2 (jsc p)) x))))).

(** [chain sk j l]: [l] is the list of joints from a root down to [j]. *)
Inductive chain (sk : skeleton) : nat -> list nat -> Prop :=
| chain_root j jt :
    nth_error sk j = Some jt -> jparent jt = None -> chain sk j [j]
| chain_child j jt p l :
    nth_error sk j = Some jt -> jparent jt = Some p -> chain sk p l -> chain sk j (l ++ [j]).

(** Composition of the joint maps along a path, outermost (root) first. *)
Fixpoint chain_map (sk : skeleton) (params : list R) (l : list nat) (x : vec3) : vec3 :=
  match l with
  | [] => x
  | a :: rest =>
      match nth_error sk a with
      | Some jt => joint_map jt (jparam_at params a) (chain_map sk params rest x)
      | None => x
      end
  end.

Definition unit_prerotations (sk : skeleton) : Prop :=
  forall j jt, nth_error sk j = Some jt -> qunit (jprerot jt).

(** Derivative of a vector-valued function of a real variable. *)
Definition is_vderive (f : R -> vec3) (t : R) (d : vec3) : Prop :=
  is_derive (fun u => vx (f u)) t (vx d) /\
  is_derive (fun u => vy (f u)) t (vy d) /\
  is_derive (fun u => vz (f u)) t (vz d).

Fixpoint vsum (l : list vec3) : vec3 :=
  match l with [] => vzero | v :: r => vadd v (vsum r) end.

(** [params] with entry [k] replaced by [t]. *)
Fixpoint set_nth (l : list R) (k : nat) (t : R) : list R :=
  match l, k with
  | [], _ => []
  | _ :: r, O => t :: r
  | x :: r, S k' => x :: set_nth r k' t
  end.

(** The contribution of one joint to the velocity of a point at [x], written
    with the accessors of JointState. *)
Definition joint_velocity (s : jstate) (d : jparam) (x : vec3) : vec3 :=
  let ref := vsub x (trans (js_world s)) in
  vsum [ vscale (jtx d) (get_translation_derivative s 0);
         vscale (jty d) (get_translation_derivative s 1);
         vscale (jtz d) (get_translation_derivative s 2);
         vscale (jrx d) (get_rotation_derivative s 0 ref);
         vscale (jry d) (get_rotation_derivative s 1 ref);
         vscale (jrz d) (get_rotation_derivative s 2 ref);
         vscale (jsc d) (get_scale_derivative s ref) ].

(** The partial derivative that the accessors of joint [a]'s state give for
    joint parameter [k] (0-2 translation, 3-5 rotation, 6 scale) of a point with
    offset [ref] from the joint. *)
Definition accessor_partial (s : jstate) (k : nat) (ref : vec3) : vec3 :=
  match k with
  | 0 => get_translation_derivative s 0
  | 1 => get_translation_derivative s 1
  | 2 => get_translation_derivative s 2
  | 3 => get_rotation_derivative s 0 ref
  | 4 => get_rotation_derivative s 1 ref
  | 5 => get_rotation_derivative s 2 ref
  | _ => get_scale_derivative s ref
  end%nat.

(** The contribution of one joint to the velocity of a direction [x] (a vector
    that is rotated, but not moved or scaled, with the joint). *)
Definition axis_velocity (s : jstate) (d : jparam) (x : vec3) : vec3 :=
  vsum [ vscale (jrx d) (get_rotation_derivative s 0 x);
         vscale (jry d) (get_rotation_derivative s 1 x);
         vscale (jrz d) (get_rotation_derivative s 2 x) ].
