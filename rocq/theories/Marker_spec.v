(** What marker conversion and TRC files should mean (C40, C41). *)

From Coq Require Import List Arith Ascii ZArith Reals Bool String.
From Verif Require Import Prelude R3 Str_model Str_spec Lines_model Lines_spec Marker_model.
Import ListNotations.
Local Open Scope R_scope.

(** Centimetres in a unit; files in unknown units are taken to be in centimetres. *)
Definition cm_per (u : unit_) : R :=
  match u with UM => 100 | UDM => 10 | UCM => 1 | UMM => / 10 | UUnknown => 1 end.

(** The axis that points up. *)
Definition up_axis (up : upvec) : vec3 :=
  match up with UpX => V3 1 0 0 | UpY => V3 0 1 0 | UpZ => V3 0 0 1 | UpYNeg => V3 0 (-1) 0 end.

(** A linear map that keeps angles and handedness and scales lengths by [k]. *)
Definition scaled_rotation (k : R) (f : vec3 -> vec3) : Prop :=
  (forall a b s, f (vadd a (vscale s b)) = vadd (f a) (vscale s (f b))) /\
  (forall a b, vdot (f a) (f b) = k * k * vdot a b) /\
  (forall a b, vcross (f a) (f b) = vscale k (f (vcross a b))).

(** The spellings of a unit. *)
Definition unit_names (u : unit_) : list str :=
  match u with
  | UM => [txt "m"; txt "M"] | UDM => [txt "dm"; txt "DM"] | UCM => [txt "cm"; txt "CM"]
  | UMM => [txt "mm"; txt "MM"] | UUnknown => []
  end.

(** The words of a line: its nonempty pieces between blanks. *)
Definition words (l : str) (ws : list str) : Prop :=
  (l = [] /\ ws = []) \/
  exists ps, splits blanks l ps /\ ws = filter (fun p => negb (Nat.eqb (List.length p) 0)) ps.

Section File.
Variable stod : str -> option R.
Variable stoi : str -> option Z.

(** Marker [m] called [name] from the three fields of a row. *)
Definition marker_of (up : upvec) (u : unit_) (name a b c : str) (m : marker) : Prop :=
  mk_name m = name /\
  ((mk_occluded m = true /\ (a = [] \/ b = [] \/ c = [])) \/
   (mk_occluded m = false /\ a <> [] /\ b <> [] /\ c <> [] /\
    exists x y z, stod a = Some x /\ stod b = Some y /\ stod c = Some z /\
      mk_pos m = to_momentum (V3 x y z) up u)).

(** The frame of a row: one marker per name, from fields 2, 3, 4, then 5, 6, 7, and so on. *)
Definition frame_of (up : upvec) (u : unit_) (names row : list str) (f : list marker) : Prop :=
  List.length f = List.length names /\
  forall i name, nth_error names i = Some name ->
    exists m a b c, nth_error f i = Some m /\
      nth_error row (3 * i + 2) = Some a /\ nth_error row (3 * i + 3) = Some b /\ nth_error row (3 * i + 4) = Some c /\
      marker_of up u name a b c m.

(** Every field of the markers is empty or a number. *)
Definition numeric (row : list str) : Prop := forall s, In s (skipn 2 row) -> s = [] \/ stod s <> None.

(** A TRC file: five header lines, then the rows, of which those with the right number of fields
    count. *)
Inductive trc_file (rate : R) (unit_word : str) (names : list str) : list str -> list (list str) -> Prop :=
| trc_file_intro : forall h1 h2 h3 h4 h5 (data : list (str * list str)) good,
    (exists a b, h1 = a ++ head1 ++ b) ->
    (exists a b, h2 = a ++ head2 ++ b) ->
    (exists w0 w1 w2 w3 w5 w6 w7, words h3 [w0; w1; w2; w3; unit_word; w5; w6; w7] /\
       stod w0 = Some rate /\ stoi w3 = Some (Z.of_nat (List.length names))) ->
    (exists w0 w1, words h4 (w0 :: w1 :: names)) ->
    Forall (fun p => splits [tab] (fst p) (snd p)) data ->
    good = filter (fun r => Nat.eqb (List.length r) (3 * List.length names + 2)) (map snd data) ->
    Forall numeric good ->
    trc_file rate unit_word names (h1 :: h2 :: h3 :: h4 :: h5 :: map fst data) good.
End File.
