(** What saving and loading locators should do (C123). *)

From Coq Require Import List Arith Ascii NArith ZArith Bool.
From Verif Require Import Prelude Str_model Lines_model LocIO_model.
Import ListNotations.

(** Text that has no colon and no end of line. *)
Definition plain (s : str) : Prop := forall c, In c s -> c <> ":"%char /\ c <> cr /\ c <> lf.

Definition int32 (z : Z) : Prop := (- 2 ^ 31 <= z < 2 ^ 31)%Z.
Definition all3 {A} (P : A -> Prop) (v : A * A * A) : Prop := let '(x, y, z) := v in P x /\ P y /\ P z.
Definition map3 {A B} (f : A -> B) (v : A * A * A) : B * B * B := let '(x, y, z) := v in (f x, f y, f z).

(** What is printed for a [good] number and then read, with the comma behind it, is that number rounded to what is printed; integers are read exactly. *)
Record prints {F T} (e : env F T) (good : F -> Prop) (round : F -> F) : Prop := {
  pr_float : forall x, good x -> e_stof e (e_show e x ++ [","%char]) = Some (round x);
  pr_float_plain : forall x, plain (e_show e x);
  pr_int : forall z, int32 z -> e_stoi e (e_showz e z ++ [","%char]) = Some z;
  pr_int_plain : forall z, plain (e_showz e z)
}.

(** The joint a locator is on. *)
Definition on_joint {F T} (joints : list (str * T)) (l : loc F) (j : str * T) : Prop :=
  exists p, l_parent l = Some p /\ nth_error joints (N.to_nat p) = Some j.

(** A locator that the file format can express: it is on a joint, the first of its name. *)
Definition savable {F T} (e : env F T) (good : F -> Prop) (space : lspace) (joints : list (str * T)) (l : loc F) : Prop :=
  plain (l_name l) /\ all3 int32 (l_locked l) /\ good (l_weight l) /\ all3 (fun x => e_is_zero e x = false -> good x) (l_lweight l) /\
  exists p j, l_parent l = Some p /\ nth_error joints (N.to_nat p) = Some j /\ plain (fst j) /\
    (forall k i, k < N.to_nat p -> nth_error joints k = Some i -> fst i <> fst j) /\
    all3 good (match space with SLocal => l_offset l | SGlobal => e_world e (snd j) (l_offset l) end).

(** [l'] is [l] after it was saved and loaded. *)
Definition reloaded {F T} (e : env F T) (round : F -> F) (space : lspace) (joints : list (str * T)) (l l' : loc F) : Prop :=
  l_name l' = l_name l /\ l_parent l' = l_parent l /\ l_locked l' = l_locked l /\ l_weight l' = round (l_weight l) /\
  l_lweight l' = map3 (fun x => if e_is_zero e x then e_zero e else round x) (l_lweight l) /\ l_origin l' = l_offset l' /\
  forall j, on_joint joints l j ->
    l_offset l' = match space with
                  | SLocal => map3 round (l_offset l)
                  | SGlobal => e_local e (snd j) (map3 round (e_world e (snd j) (l_offset l)))
                  end.

(** The text of a file with these lines. *)
Definition file (lines : list String.string) : str := flat_map (fun l => lit l ++ [lf]) lines.

(** Whole numbers as floats, printed as so many ones and a zero, and joints that are only translated: an environment to try files in. *)
Definition show_ones (z : Z) : str := (if (z <? 0)%Z then ["-"%char] else []) ++ repeat "1"%char (Z.to_nat (Z.abs z)) ++ ["0"%char].
Fixpoint read_ones (s : str) (n : Z) : option Z :=
  match s with
  | [] => None
  | c :: r => if Ascii.eqb c "1" then read_ones r (n + 1) else if Ascii.eqb c "0" then Some n else None
  end.
Definition read_number (s : str) : option Z :=
  match s with
  | [] => None
  | c :: r => if Ascii.eqb c "-" then option_map Z.opp (read_ones r 0) else read_ones s 0
  end.
Definition add3 (a b : Z * Z * Z) : Z * Z * Z := let '(x, y, z) := a in let '(p, q, r) := b in (x + p, y + q, z + r)%Z.
Definition ones_env : env Z (Z * Z * Z) :=
  {| e_show := show_ones; e_stof := read_number; e_showz := show_ones; e_stoi := read_number; e_zero := 0%Z; e_one := 1%Z; e_is_zero := Z.eqb 0;
     e_world := add3; e_local := fun t v => add3 v (map3 Z.opp t) |}.
