(** Weighted sums over influences (C44) and weights of joints (C45). *)

From Coq Require Import Reals List Arith.
From Verif Require Import R3 LinAlg Transform_model.
Import ListNotations.
Local Open Scope R_scope.

Definition vsum (l : list vec3) : vec3 := fold_right vadd vzero l.

(** What an influence adds to a vertex: weight * (world * inverse bind) * rest position; nothing if the
    weight is zero. *)
Definition adds (worlds inv : list affine) (pos : vec3) (x : nat * R) (v : vec3) : Prop :=
  snd x = 0 /\ v = vzero \/
  exists world bind, nth_error worlds (fst x) = Some world /\ nth_error inv (fst x) = Some bind /\
    v = vscale (snd x) (aff_point world (aff_point bind pos)).
Definition skinned (worlds inv : list affine) (row : list (nat * R)) (pos v : vec3) : Prop :=
  exists vs, Forall2 (adds worlds inv pos) row vs /\ v = vsum vs.

(** The same for directions. *)
Definition adds_dir (worlds inv : list affine) (d : vec3) (x : nat * R) (v : vec3) : Prop :=
  snd x = 0 /\ v = vzero \/
  exists world bind, nth_error worlds (fst x) = Some world /\ nth_error inv (fst x) = Some bind /\
    v = vscale (snd x) (mvec (alin world) (mvec (alin bind) d)).
Definition skinned_dir (worlds inv : list affine) (row : list (nat * R)) (d v : vec3) : Prop :=
  exists vs, Forall2 (adds_dir worlds inv d) row vs /\ v = vsum vs.

(** The joints of the influences that have weight exist. *)
Definition row_ok (n : nat) (row : list (nat * R)) : Prop := forall j w, In (j, w) row -> w <> 0 -> (j < n)%nat.

(** No influence follows one of weight zero. *)
Definition zeros_last (row : list (nat * R)) : Prop :=
  forall i k x y, (i < k)%nat -> nth_error row i = Some x -> nth_error row k = Some y -> snd x = 0 -> snd y = 0.

(** The influences before the first of weight zero. *)
Fixpoint before_zero (row : list (nat * R)) : list (nat * R) :=
  match row with
  | [] => []
  | x :: r => if Req_EM_T (snd x) 0 then [] else x :: before_zero r
  end.

Definition total (row : list (nat * R)) : R := rsum (map snd row).
(** The weight that joint [k] has in a row. *)
Definition weight_of (k : nat) (row : list (nat * R)) : R := rsum (map (fun x => if Nat.eqb (fst x) k then snd x else 0) row).
(** The weight that the joints mapped to [k] have in a row. *)
Definition weight_onto (jmap : list (option nat)) (k : nat) (row : list (nat * R)) : R :=
  rsum (map (fun x => match nth_error jmap (fst x) with Some (Some j) => if Nat.eqb j k then snd x else 0 | _ => 0 end) row).
(** Every joint of the row is mapped to one of the [n] new joints. *)
Definition mapped_row (jmap : list (option nat)) (n : nat) (row : list (nat * R)) : Prop :=
  forall j w, In (j, w) row -> exists k, nth_error jmap j = Some (Some k) /\ (k < n)%nat.
Definition decreasing (row : list (nat * R)) : Prop :=
  forall i k x y, (i < k)%nat -> nth_error row i = Some x -> nth_error row k = Some y -> snd y <= snd x.
(** No joint has weight in two entries. *)
Definition one_entry_each (row : list (nat * R)) : Prop :=
  forall i k x y, (i < k)%nat -> nth_error row i = Some x -> nth_error row k = Some y -> fst x = fst y -> snd x = 0 \/ snd y = 0.

(** [n] is [d] scaled to length one; zero stays zero. *)
Definition direction_of (d n : vec3) : Prop :=
  d = vzero /\ n = vzero \/ vdot n n = 1 /\ exists s, 0 < s /\ d = vscale s n.

(** The images of the unit vectors span space. *)
Definition spans (worlds inv : list affine) (row : list (nat * R)) : Prop :=
  forall a b c, skinned_dir worlds inv row ex a -> skinned_dir worlds inv row ey b -> skinned_dir worlds inv row ez c ->
    vdot a (vcross b c) <> 0.
