(** What writing and parsing parameter limits should do (C124). *)

From Coq Require Import List Arith ZArith Ascii Bool String.
From Verif Require Import Prelude Str_model Lines_model LocIO_model LocIO_spec LimIO_model.
Import ListNotations.
Local Open Scope list_scope.

(** A name of letters, digits, underscores and periods that starts with a letter or an underscore. *)
Definition one_of (s : String.string) (c : ascii) : bool := existsb (Ascii.eqb c) (lit s).
Definition name_first (c : ascii) : bool := one_of "abcdefghijklmnopqrstuvwxyzABCDEFGHIJKLMNOPQRSTUVWXYZ_" c.
Definition name_char (c : ascii) : bool := name_first c || one_of "0123456789." c.
Definition name_like (s : str) : Prop := exists c r, s = c :: r /\ name_first c = true /\ forallb name_char s = true.
Definition no_period (s : str) : Prop := ~ In "."%char s.
(** The text of a number: digits, signs, periods and e, starting with a digit or a sign. *)
Definition number_first (c : ascii) : bool := one_of "0123456789+-" c.
Definition number_char (c : ascii) : bool := number_first c || one_of ".e" c.
Definition number_like (s : str) : Prop := exists c r, s = c :: r /\ number_first c = true /\ forallb number_char s = true.

(** The numbers that the code compares with others. *)
Definition known {F M} (e : nums F M) (good : F -> Prop) (x : F) : Prop := good x \/ x = n_zero e \/ x = n_one e \/ x = n_max e \/ x = n_min e.
(** A [good] number is printed as the text of a number, which is read as the number rounded to what is printed; comparison is exact on these and the
    constants. *)
Record reads {F M} (e : nums F M) (good : F -> Prop) (round : F -> F) : Prop := {
  rd_text : forall x, good x -> number_like (n_show e x);
  rd_value : forall x, good x -> n_stof e (n_show e x) = Some (round x);
  rd_eq : forall x y, known e good x -> known e good y -> (n_eqb e x y = true <-> x = y);
  rd_min : n_min e <> n_zero e /\ n_min e <> n_max e
}.

(** The joint or parameter [k] is the first one of its name, and the name is one. *)
Definition first_named (names : list str) (k : nat) (n : str) : Prop :=
  nth_error names k = Some n /\ name_like n /\ forall i m, i < k -> nth_error names i = Some m -> m <> n.

(** What a limit of each kind needs to be written and parsed: names, and numbers that can be read. *)
Definition writable {F M} (e : nums F M) (good : F -> Prop) (joints params : list str) (l : plimit F M) : Prop :=
  good (p_weight l) /\
  match p_limit l with
  | LMinMax k x y => good x /\ good y /\ exists n, first_named params k n /\ no_period n
  | LMinMaxJoint j q x y | LMinMaxPassive j q x y => good x /\ good y /\ q < 7 /\ exists n, first_named joints j n /\ no_period n
  | LLinear i t a b rmin rmax =>
    good a /\ good b /\ (rmax = n_max e \/ good rmax) /\ rmax <> n_min e /\ (exists n, first_named params i n) /\ (exists n, first_named params t n)
  | LHalfPlane a b (x, y) o => good x /\ good y /\ good o /\ (exists n, first_named params a n) /\ (exists n, first_named params b n)
  | LEllipsoid p o q m =>
    let '(t, r, s) := n_split e m in
    List.length o = 3 /\ List.length t = 3 /\ List.length r = 3 /\ List.length s = 3 /\
    List.Forall good o /\ List.Forall good t /\ List.Forall good r /\ List.Forall good s /\
    (exists n, first_named joints p n) /\ (exists n, first_named joints q n)
  end.

(** A linear limit begins at the lowest number or goes on where the one before it, for the same two parameters and with the same weight, ends; there the two meet. *)
Definition goes_on {F M} (e : nums F M) (round : F -> F) (p l : plimit F M) : Prop :=
  match p_limit p, p_limit l with
  | LLinear i t a b _ rmax, LLinear i' t' a' b' rmin' _ =>
    i' = i /\ t' = t /\ p_weight l = p_weight p /\ rmin' = rmax /\ rmax <> n_max e /\ n_eqb e (round rmax) (n_max e) = false /\
    n_jump e (round a, round b) (round a', round b') (round rmax) = false
  | _, _ => False
  end.
Fixpoint in_segments {F M} (e : nums F M) (round : F -> F) (before : option (plimit F M)) (ls : list (plimit F M)) : Prop :=
  match ls with
  | [] => True
  | l :: r =>
    match p_limit l with
    | LLinear _ _ _ _ rmin _ => rmin = n_min e \/ exists p, before = Some p /\ goes_on e round p l
    | _ => True
    end /\ in_segments e round (Some l) r
  end.

(** The limit with its numbers as they are printed. *)
Definition as_printed {F M} (e : nums F M) (round : F -> F) (l l' : plimit F M) : Prop :=
  match p_limit l, p_limit l' with
  | LMinMax k x y, LMinMax k' x' y' => k' = k /\ x' = round x /\ y' = round y
  | LMinMaxJoint j q x y, LMinMaxJoint j' q' x' y' => j' = j /\ q' = q /\ x' = round x /\ y' = round y
  | LMinMaxPassive j q x y, LMinMaxPassive j' q' x' y' => j' = j /\ q' = q /\ x' = round x /\ y' = round y
  | LLinear i t a b rmin rmax, LLinear i' t' a' b' rmin' rmax' =>
    i' = i /\ t' = t /\ a' = round a /\ b' = round b /\
    (rmin = n_min e -> rmin' = n_min e) /\ (rmin <> n_min e -> rmin' = round rmin) /\
    (rmax = n_max e -> rmax' = n_max e) /\ (rmax <> n_max e -> rmax' = round rmax)
  | LHalfPlane a b (x, y) o, LHalfPlane a' b' n' o' => a' = a /\ b' = b /\ (n', o') = n_norm e (round x, round y) (round o)
  | LEllipsoid p o q m, LEllipsoid p' o' q' m' =>
    p' = p /\ q' = q /\ o' = map round o /\
    let '(t, r, s) := n_split e m in m' = n_join e (map round t) (map round r) (map round s)
  | _, _ => False
  end /\
  (match p_limit l with LLinear _ _ _ _ _ _ => p_weight l' = round (p_weight l)
   | _ => (p_weight l = n_one e -> p_weight l' = n_one e) /\ (p_weight l <> n_one e -> p_weight l' = round (p_weight l)) end).

(** A limit of parameters and joints that exist. *)
Definition in_range {F M} (joints params : list str) (l : plimit F M) : Prop :=
  match p_limit l with
  | LMinMax k _ _ => k < List.length params
  | LMinMaxJoint j q _ _ | LMinMaxPassive j q _ _ => j < List.length joints /\ q < 7
  | LLinear i t _ _ _ _ => i < List.length params /\ t < List.length params
  | LHalfPlane a b _ _ => a < List.length params /\ b < List.length params
  | LEllipsoid p _ q _ => p < List.length joints /\ q < List.length joints
  end.

(** Whole numbers as floats, as in [ones_env]; 1000 is the largest and an ellipsoid is its three vectors. *)
Definition ones_nums : nums Z (list Z * list Z * list Z) :=
  {| n_show := show_ones; n_stof := read_number; n_eqb := Z.eqb; n_zero := 0%Z; n_one := 1%Z; n_max := 1000%Z; n_min := (-1000)%Z;
     n_jump := fun p q x => negb (fst p * x - snd p =? fst q * x - snd q)%Z; n_norm := fun n o => (n, o);
     n_split := fun m => m; n_join := fun t r s => (t, r, s) |}.

(** [l] is a linear limit for the same two parameters as [p] whose range begins where that of [p] ends. *)
Definition continues {F M} (e : nums F M) (p l : plimit F M) : Prop :=
  exists i t a b x rmax a' b' rmin y, p_limit p = LLinear i t a b x rmax /\ p_limit l = LLinear i t a' b' rmin y /\ n_eqb e rmin rmax = true.
