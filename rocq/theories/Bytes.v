(** Binary streams: std::ofstream / std::ifstream opened with std::ios::binary, on a little-endian
    machine with 64-bit size_t and 4-byte float. A byte is an [ascii]. *)

From Coq Require Import List Arith Ascii NArith Lia Bool.
From Verif Require Import Prelude Loops.
Import ListNotations.
Local Open Scope outcome_scope.

(** The [k] low bytes of [n], low byte first: the memory of an unsigned integer. *)
Fixpoint le_bytes (k : nat) (n : N) : list ascii :=
  match k with
  | 0 => []
  | S k => ascii_of_N (n mod 256) :: le_bytes k (n / 256)
  end.
Fixpoint of_le (l : list ascii) : N :=
  match l with
  | [] => 0
  | b :: r => N_of_ascii b + 256 * of_le r
  end.

(** The four bytes of a float, whatever they encode. *)
Definition f32 : Type := (ascii * ascii * ascii * ascii)%type.
Definition f32_bytes (x : f32) : list ascii := let '(a, b, c, d) := x in [a; b; c; d].
Definition f32_zero : f32 := (Ascii.zero, Ascii.zero, Ascii.zero, Ascii.zero).
Fixpoint floats_of (l : list ascii) : list f32 :=
  match l with
  | a :: b :: c :: d :: r => (a, b, c, d) :: floats_of r
  | _ => []
  end.

(** An input stream: the bytes that remain, and whether no read has failed. *)
Record stream := { s_rest : list ascii; s_good : bool }.

(** istream::read(buffer, n), where the buffer held [old] ([n] bytes): a read beyond the end takes
    what is left and makes the stream fail; a failed stream reads nothing. *)
Definition fread (n : nat) (old : list ascii) (s : stream) : list ascii * stream :=
  if negb (s_good s) then (old, s)
  else if n <=? length (s_rest s) then
    (firstn n (s_rest s), {| s_rest := skipn n (s_rest s); s_good := true |})
  else
    (s_rest s ++ skipn (length (s_rest s)) old, {| s_rest := []; s_good := false |}).

(** size_t x = 0; fs.read((char* )&x, sizeof(size_t)). *)
Definition read_size (s : stream) : N * stream :=
  let (b, s') := fread 8 (le_bytes 8 0) s in (of_le b, s').

Lemma le_bytes_length k : forall n, length (le_bytes k n) = k.
Proof. induction k as [|k IH]; intros n; cbn; [reflexivity|]. rewrite IH. reflexivity. Qed.

Lemma of_le_bytes k : forall n, (n < 256 ^ N.of_nat k)%N -> of_le (le_bytes k n) = n.
Proof.
  induction k as [|k IH]; intros n H.
  - cbn in *. lia.
  - cbn [le_bytes of_le]. rewrite N_ascii_embedding by (apply N.mod_lt; lia).
    rewrite IH.
    + rewrite N.add_comm, <- N.div_mod; lia.
    + rewrite Nat2N.inj_succ, N.pow_succ_r' in H. apply N.div_lt_upper_bound; lia.
Qed.

Lemma fread_exact n old b r : length b = n ->
  fread n old {| s_rest := b ++ r; s_good := true |} = (b, {| s_rest := r; s_good := true |}).
Proof.
  intros H. unfold fread. cbn [s_good s_rest negb]. rewrite app_length.
  assert ((n <=? length b + length r) = true) as -> by (apply Nat.leb_le; lia).
  rewrite <- H, firstn_app, Nat.sub_diag, firstn_all, firstn_O, app_nil_r.
  rewrite skipn_app, Nat.sub_diag, skipn_all. reflexivity.
Qed.

Lemma read_size_exact n r : (n < 2 ^ 64)%N ->
  read_size {| s_rest := le_bytes 8 n ++ r; s_good := true |} = (n, {| s_rest := r; s_good := true |}).
Proof.
  intros H. unfold read_size. rewrite fread_exact by apply le_bytes_length.
  rewrite of_le_bytes; [reflexivity|]. exact H.
Qed.

Lemma floats_of_bytes l : floats_of (flat_map f32_bytes l) = l.
Proof.
  induction l as [|[[[a b] c] d] l IH]; [reflexivity|]. cbn. rewrite IH. reflexivity.
Qed.
Lemma flat_bytes_length l : length (flat_map f32_bytes l) = 4 * length l.
Proof.
  induction l as [|[[[a b] c] d] l IH]; [reflexivity|].
  change (flat_map f32_bytes ((a, b, c, d) :: l)) with ([a; b; c; d] ++ flat_map f32_bytes l).
  rewrite app_length, IH. cbn [length]. lia.
Qed.
Lemma floats_of_length n : forall l, length l = 4 * n -> length (floats_of l) = n.
Proof.
  induction n as [|n IH]; intros l H; [destruct l; [reflexivity|discriminate]|].
  destruct l as [|a [|b [|c [|d r]]]]; cbn in H; try lia. cbn. rewrite IH; [reflexivity|lia].
Qed.
