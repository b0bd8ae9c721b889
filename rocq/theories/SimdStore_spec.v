(** What a user of the SIMD constraint stores sees: for every joint a list of
    constraints. *)

From Coq Require Import Bool Reals List Arith.
From Verif Require Import Prelude SimdStore_model.
Import ListNotations.

(** The capacity is a whole number of packets, and there is a weight array. *)
Record sdim_ok (D : sdim) : Prop := {
  sd_packet : 0 < d_packet D;
  sd_aligned : exists k, d_cap D = k * (4 * d_packet D);
  sd_blocks : 0 < d_blocks D
}.

(** Number [b] of constraint [s] of joint [j]: the arrays are stored one after the
    other, each with [d_cap] entries per joint. *)
Definition cell (D : sdim) (st : sstore) (b j s : nat) : option R :=
  nth_error (ss_data st) ((b * ss_n st + j) * d_cap D + s).
(** All numbers of a slot. *)
Definition holds (D : sdim) (st : sstore) (j s : nat) (vals : list R) : Prop :=
  List.length vals = d_blocks D /\ forall b, b < d_blocks D -> cell D st b j s = nth_error vals b.

(** A store whose arrays have the right sizes and whose counts are within the
    capacity. *)
Record store_ok (D : sdim) (st : sstore) : Prop := {
  so_joints : ss_n st <= d_joints D;
  so_data : List.length (ss_data st) = d_cap D * ss_n st * d_blocks D;
  so_count : List.length (ss_count st) = d_joints D;
  so_full : forall j c, j < ss_n st -> nth_error (ss_count st) j = Some c -> c <= d_cap D
}.

(** The store shows the constraints [lists j] for every joint, and the unused
    slots have weight 0. *)
Record shows (D : sdim) (st : sstore) (lists : nat -> list (list R)) : Prop := {
  sh_ok : store_ok D st;
  sh_count : forall j, j < ss_n st -> nth_error (ss_count st) j = Some (List.length (lists j));
  sh_slots : forall j s vals, j < ss_n st -> nth_error (lists j) s = Some vals -> holds D st j s vals;
  sh_unused : forall j s, j < ss_n st -> List.length (lists j) <= s -> s < d_cap D ->
                cell D st (d_blocks D - 1) j s = Some 0%R
}.

(** What the user did. *)
Inductive sop : Type := SAdd (j : nat) (vals : list R) | SClear.
Definition sop_ok (D : sdim) (n : nat) (o : sop) : Prop :=
  match o with SAdd j vals => j < n /\ List.length vals = d_blocks D | SClear => True end.
(** Constraints beyond the capacity are dropped. *)
Definition expected1 (cap : nat) (lists : nat -> list (list R)) (o : sop) : nat -> list (list R) :=
  match o with
  | SClear => fun _ => []
  | SAdd j vals => fun j' => if Nat.eqb j' j && Nat.ltb (List.length (lists j)) cap
                             then lists j ++ [vals] else lists j'
  end.
Definition expected (cap : nat) (os : list sop) : nat -> list (list R) :=
  fold_left (expected1 cap) os (fun _ => []).

Definition run_op (D : sdim) (o : sop) (st : sstore) : outcome sstore :=
  match o with SAdd j vals => ss_add D st j vals | SClear => ss_clear D st end.
Definition run_op_normal (D : sdim) (o : sop) (st : sstore) : outcome sstore :=
  match o with SAdd j vals => omap fst (ss_add_normal D st j vals) | SClear => ss_clear D st end.

(** Calls in parallel. *)
Definition all_done (ts : list (call * cpc)) : Prop :=
  forall c p, In (c, p) ts -> exists r, p = PDone r.
Definition calls_for (j : nat) (calls : list call) : nat :=
  List.length (filter (fun c => Nat.eqb (c_joint c) j) calls).

(** [st'] is [st] with [calls] added, [placed i] the slot of call [i]. *)
Record added (D : sdim) (st st' : sstore) (calls : list call) (placed : nat -> option nat) : Prop := {
  ad_joints : ss_n st' = ss_n st;
  ad_ok : store_ok D st';
  (* as many as fit are added *)
  ad_count : forall j c, j < ss_n st -> nth_error (ss_count st) j = Some c ->
      nth_error (ss_count st') j = Some (Nat.min (d_cap D) (c + calls_for j calls));
  (* an added constraint is in a new slot, with all its numbers *)
  ad_slot : forall i k s c, nth_error calls i = Some k -> placed i = Some s ->
      nth_error (ss_count st) (c_joint k) = Some c ->
      c <= s /\ s < Nat.min (d_cap D) (c + calls_for (c_joint k) calls) /\
      holds D st' (c_joint k) s (c_vals k);
  (* no two in the same *)
  ad_distinct : forall i i' k k' s, nth_error calls i = Some k -> nth_error calls i' = Some k' ->
      c_joint k = c_joint k' -> placed i = Some s -> placed i' = Some s -> i = i';
  (* and every new slot is one of theirs *)
  ad_all : forall j c s, j < ss_n st -> nth_error (ss_count st) j = Some c ->
      c <= s -> s < Nat.min (d_cap D) (c + calls_for j calls) ->
      exists i k, nth_error calls i = Some k /\ c_joint k = j /\ placed i = Some s;
  (* the other slots are as before *)
  ad_old : forall b j s c, b < d_blocks D -> j < ss_n st -> s < d_cap D ->
      nth_error (ss_count st) j = Some c ->
      s < c \/ Nat.min (d_cap D) (c + calls_for j calls) <= s ->
      cell D st' b j s = cell D st b j s
}.
